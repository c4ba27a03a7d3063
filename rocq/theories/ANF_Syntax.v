(** * The A-normal-form language LambdaANF: syntax, values, environments.

    Source: theories/LambdaANF/cps.v, map_util.v, List_util.v, cps_util.v.

    The repository uses CompCert's [PTree] maps; here a map is an association
    list with newest binding first ([get] after [set] behaves the same way).
    Finite sets ([PS.t], red-black trees) are lists used up to membership. *)
From Coq Require Import ZArith NArith List Lia Bool.
Import ListNotations.
Set Implicit Arguments.

(** Identifiers: theories/LambdaANF/cps.v:18-27 ([M.elt] is [positive]). *)
Definition var := positive.
Definition fun_tag := positive.
Definition ctor_tag := positive.
Definition ind_tag := positive.
Definition prim := positive.

(** theories/common/AstCommon.v:562-574: a primitive value is a machine
    integer, a float (here: its 64 bits) or a string (here: its bytes). *)
Inductive primitive_value : Set :=
| PVint (n : Z)
| PVfloat (bits : Z)
| PVstring (bytes : list Z).

(** ** Maps: theories/LambdaANF/cps.v:18 ([M := Maps.PTree]) *)
Definition tmap (A : Type) := list (positive * A).

(** [PTree.get]: most recent binding. *)
Fixpoint get {A} (x : positive) (m : tmap A) : option A :=
  match m with
  | [] => None
  | (y, v) :: m' => if Pos.eq_dec x y then Some v else get x m'
  end.

(** [PTree.set] *)
Definition set {A} (x : positive) (v : A) (m : tmap A) : tmap A := (x, v) :: m.

(** theories/LambdaANF/map_util.v:145-152 *)
Fixpoint get_list {A} (xs : list positive) (rho : tmap A) : option (list A) :=
  match xs with
  | x :: xs' =>
      match get x rho, get_list xs' rho with
      | Some v, Some vs => Some (v :: vs)
      | _, _ => None
      end
  | [] => Some []
  end.

(** theories/LambdaANF/map_util.v:154-162 *)
Fixpoint set_lists {A} (xs : list positive) (vs : list A) (rho : tmap A)
  : option (tmap A) :=
  match xs, vs with
  | x :: xs', v :: vs' =>
      match set_lists xs' vs' rho with
      | Some rho' => Some (set x v rho')
      | None => None
      end
  | [], [] => Some rho
  | _, _ => None
  end.

(** theories/LambdaANF/List_util.v:27-32 *)
Fixpoint nthN {A} (al : list A) (n : N) : option A :=
  match al with
  | [] => None
  | a :: al' => if N.eqb n 0 then Some a else nthN al' (n - 1)%N
  end.

(** ** Expressions: theories/LambdaANF/cps.v:56-68 *)
Inductive exp : Type :=
| Econstr : var -> ctor_tag -> list var -> exp -> exp
| Ecase : var -> list (ctor_tag * exp) -> exp
| Eproj : var -> ctor_tag -> N -> var -> exp -> exp
| Eletapp : var -> var -> fun_tag -> list var -> exp -> exp
| Efun : fundefs -> exp -> exp
| Eapp : var -> fun_tag -> list var -> exp
| Eprim_val : var -> primitive_value -> exp -> exp
| Eprim : var -> prim -> list var -> exp -> exp
| Ehalt : var -> exp
with fundefs : Type :=
| Fcons : var -> fun_tag -> list var -> exp -> fundefs -> fundefs
| Fnil : fundefs.

(** ** Values: theories/LambdaANF/cps.v:312-319 *)
Inductive val : Type :=
| Vconstr : ctor_tag -> list val -> val
| Vfun : list (positive * val) -> fundefs -> var -> val
| Vprim : primitive_value -> val
| Vint : Z -> val.

(** theories/LambdaANF/eval.v:19 *)
Definition env := tmap val.

(** theories/LambdaANF/cps.v:338-342 *)
Fixpoint def_funs (fl0 fl : fundefs) (rho0 rho : env) : env :=
  match fl with
  | Fcons f t xs e fl' => set f (Vfun rho0 fl0 f) (def_funs fl0 fl' rho0 rho)
  | Fnil => rho
  end.

(** theories/LambdaANF/cps.v:344-349 *)
Fixpoint find_def (f : var) (fl : fundefs) : option (fun_tag * list var * exp) :=
  match fl with
  | Fcons f' t ys e fl' =>
      if Pos.eq_dec f f' then Some (t, ys, e) else find_def f fl'
  | Fnil => None
  end.

(** theories/LambdaANF/cps.v:47-51 *)
Fixpoint findtag {A} (cl : list (ctor_tag * A)) (c : ctor_tag) : option A :=
  match cl with
  | (c', a) :: cl' => if Pos.eq_dec c' c then Some a else findtag cl' c
  | [] => None
  end.

(** theories/LambdaANF/cps.v:354-361; the two name fields are left out. *)
Record ctor_ty_info : Set :=
  { ctor_ind_tag : ind_tag; ctor_arity : N; ctor_ordinal : N }.

(** theories/LambdaANF/cps.v:378 *)
Definition ctor_env := tmap ctor_ty_info.

(** theories/LambdaANF/cps_util.v:385-398 (the boolean form of the inductive
    [caseConsistent], cps_util.v:370-383; equivalence proved there). *)
Fixpoint caseConsistent_f (cenv : ctor_env) (l : list (ctor_tag * exp))
         (t : ctor_tag) : bool :=
  match l with
  | [] => true
  | (t', _) :: l' =>
      caseConsistent_f cenv l' t &&
      match get t cenv with
      | Some info =>
          match get t' cenv with
          | Some info' => Pos.eqb (ctor_ind_tag info) (ctor_ind_tag info')
          | None => false
          end
      | None => false
      end
  end.

(** theories/LambdaANF/cps_util.v:273-277 *)
Fixpoint fundefs_append (B1 B2 : fundefs) : fundefs :=
  match B1 with
  | Fcons f t xs e B => Fcons f t xs e (fundefs_append B B2)
  | Fnil => B2
  end.

(** ** Computed free variables: theories/LambdaANF/identifiers.v:2569-2616 *)
Definition mem (x : var) (s : list var) : bool :=
  if in_dec Pos.eq_dec x s then true else false.

(** [PS.add] *)
Definition sadd (x : var) (s : list var) : list var :=
  if mem x s then s else x :: s.

(** theories/LambdaANF/set_util.v ([union_list]): adds a list to a set. *)
Fixpoint union_list (s : list var) (l : list var) : list var :=
  match l with
  | [] => s
  | x :: xs => union_list (sadd x s) xs
  end.

(** theories/LambdaANF/identifiers.v:2569-2573 *)
Fixpoint fundefs_names (defs : fundefs) : list var :=
  match defs with
  | Fcons f _ _ _ defs' => sadd f (fundefs_names defs')
  | Fnil => []
  end.

(** theories/LambdaANF/identifiers.v:2575-2576 *)
Definition add_list (scope fvset : list var) (ys : list var) : list var :=
  fold_left (fun fvs y => if mem y scope then fvs else sadd y fvs) ys fvset.

(** theories/LambdaANF/identifiers.v:2579-2613 *)
Fixpoint exp_fv_aux (e : exp) (scope fvset : list var) : list var :=
  match e with
  | Econstr x c ys e =>
      let fvset' := add_list scope fvset ys in
      exp_fv_aux e (sadd x scope) fvset'
  | Ecase x pats =>
      let fvset' :=
        fold_left (fun fvs p => exp_fv_aux (snd p) scope fvs) pats fvset in
      if mem x scope then fvset' else sadd x fvset'
  | Eproj x tau n y e =>
      let fvset' := if mem y scope then fvset else sadd y fvset in
      exp_fv_aux e (sadd x scope) fvset'
  | Eletapp x f ft ys e =>
      let fvset' := add_list scope fvset (f :: ys) in
      exp_fv_aux e (sadd x scope) fvset'
  | Efun defs e =>
      let '(scope', fvset') := fundefs_fv_aux defs scope fvset in
      exp_fv_aux e scope' fvset'
  | Eapp x ft xs =>
      let fvset' := add_list scope fvset xs in
      if mem x scope then fvset' else sadd x fvset'
  | Eprim_val x p e => exp_fv_aux e (sadd x scope) fvset
  | Eprim x prim ys e =>
      let fvset' := add_list scope fvset ys in
      exp_fv_aux e (sadd x scope) fvset'
  | Ehalt x => if mem x scope then fvset else sadd x fvset
  end
with fundefs_fv_aux (defs : fundefs) (scope fvset : list var)
  : list var * list var :=
  match defs with
  | Fcons f t ys e defs' =>
      let (scope', fvset') := fundefs_fv_aux defs' (sadd f scope) fvset in
      (scope', exp_fv_aux e (union_list scope' ys) fvset')
  | Fnil => (scope, fvset)
  end.

(** theories/LambdaANF/identifiers.v:2615-2616 *)
Definition exp_fv (e : exp) : list var := exp_fv_aux e [] [].
Definition fundefs_fv (B : fundefs) : list var := snd (fundefs_fv_aux B [] []).

(** ** Induction principle (theories/LambdaANF/cps.v:266-288) *)
Section IND.
  Variables (P : exp -> Prop) (P0 : fundefs -> Prop).
  Hypothesis Hconstr : forall x t ys e, P e -> P (Econstr x t ys e).
  Hypothesis Hcase :
    forall x l, Forall (fun p => P (snd p)) l -> P (Ecase x l).
  Hypothesis Hproj : forall x t n y e, P e -> P (Eproj x t n y e).
  Hypothesis Hletapp : forall x f t ys e, P e -> P (Eletapp x f t ys e).
  Hypothesis Hfun : forall B e, P0 B -> P e -> P (Efun B e).
  Hypothesis Happ : forall f t ys, P (Eapp f t ys).
  Hypothesis Hprim_val : forall x p e, P e -> P (Eprim_val x p e).
  Hypothesis Hprim : forall x p ys e, P e -> P (Eprim x p ys e).
  Hypothesis Hhalt : forall x, P (Ehalt x).
  Hypothesis Hcons : forall f t xs e B, P e -> P0 B -> P0 (Fcons f t xs e B).
  Hypothesis Hnil : P0 Fnil.

  Fixpoint exp_ind2 (e : exp) : P e :=
    match e return P e with
    | Econstr x t ys e' => Hconstr x t ys (exp_ind2 e')
    | Ecase x l =>
        Hcase x
          ((fix go (l : list (ctor_tag * exp))
              : Forall (fun p => P (snd p)) l :=
              match l with
              | [] => Forall_nil _
              | p :: l' => Forall_cons p (exp_ind2 (snd p)) (go l')
              end) l)
    | Eproj x t n y e' => Hproj x t n y (exp_ind2 e')
    | Eletapp x f t ys e' => Hletapp x f t ys (exp_ind2 e')
    | Efun B e' => Hfun (fundefs_ind2 B) (exp_ind2 e')
    | Eapp f t ys => Happ f t ys
    | Eprim_val x p e' => Hprim_val x p (exp_ind2 e')
    | Eprim x p ys e' => Hprim x p ys (exp_ind2 e')
    | Ehalt x => Hhalt x
    end
  with fundefs_ind2 (B : fundefs) : P0 B :=
    match B return P0 B with
    | Fcons f t xs e B' => Hcons f t xs (exp_ind2 e) (fundefs_ind2 B')
    | Fnil => Hnil
    end.

  Lemma exp_fundefs_ind : (forall e, P e) /\ (forall B, P0 B).
  Proof. split; [exact exp_ind2 | exact fundefs_ind2]. Qed.
End IND.

(** ** Elementary facts about maps *)
Lemma get_set_same A x (v : A) m : get x (set x v m) = Some v.
Proof. cbn. destruct (Pos.eq_dec x x); congruence. Qed.

Lemma get_set_other A x y (v : A) m : x <> y -> get x (set y v m) = get x m.
Proof. intro H. cbn. destruct (Pos.eq_dec x y); congruence. Qed.

Lemma get_set A x y (v : A) m :
  get x (set y v m) = if Pos.eq_dec x y then Some v else get x m.
Proof. reflexivity. Qed.

Lemma mem_In x s : mem x s = true <-> In x s.
Proof.
  unfold mem. destruct (in_dec Pos.eq_dec x s); split; intros; auto; congruence.
Qed.

Lemma mem_not_In x s : mem x s = false <-> ~ In x s.
Proof.
  unfold mem. destruct (in_dec Pos.eq_dec x s); split; intros; auto;
    try congruence; contradiction.
Qed.

Lemma sadd_In x y s : In x (sadd y s) <-> x = y \/ In x s.
Proof.
  unfold sadd. destruct (mem y s) eqn:E.
  - apply mem_In in E. split; [auto|]. intros [->|]; auto.
  - cbn. intuition congruence.
Qed.

Lemma union_list_In x l : forall s, In x (union_list s l) <-> In x s \/ In x l.
Proof.
  induction l as [|a l IH]; intro s; cbn.
  - intuition.
  - rewrite IH, sadd_In. intuition congruence.
Qed.

Lemma add_list_In x scope ys : forall s,
  In x (add_list scope s ys) <-> In x s \/ (~ In x scope /\ In x ys).
Proof.
  unfold add_list. induction ys as [|y ys IH]; intro s; cbn [fold_left].
  - cbn. intuition.
  - rewrite IH. destruct (mem y scope) eqn:E.
    + apply mem_In in E. cbn. split; [tauto|].
      intros [H|[H [->|H']]]; try tauto.
    + apply mem_not_In in E. rewrite sadd_In. cbn.
      split; [intros [[->|H]|H]|intros [H|[H [->|H']]]]; tauto.
Qed.

Lemma get_list_length A xs (rho : tmap A) : forall vs,
  get_list xs rho = Some vs -> length vs = length xs.
Proof.
  induction xs as [|x xs IH]; cbn; intros vs H.
  - injection H as <-. reflexivity.
  - destruct (get x rho); [|discriminate].
    destruct (get_list xs rho) eqn:E; [|discriminate].
    injection H as <-. cbn. f_equal. auto.
Qed.

Lemma set_lists_length A xs : forall (vs : list A) rho rho',
  set_lists xs vs rho = Some rho' -> length xs = length vs.
Proof.
  induction xs as [|x xs IH]; intros [|v vs] rho rho'; cbn; intro H;
    try discriminate; auto.
  destruct (set_lists xs vs rho) eqn:E; [|discriminate].
  f_equal. eapply IH; eauto.
Qed.

Lemma set_lists_total A xs : forall (vs : list A) rho,
  length xs = length vs -> exists rho', set_lists xs vs rho = Some rho'.
Proof.
  induction xs as [|x xs IH]; intros [|v vs] rho; cbn; intro H;
    try discriminate; eauto.
  destruct (IH vs rho) as [r E]; [congruence|]. rewrite E. eauto.
Qed.

Lemma set_lists_not_In A xs : forall (vs : list A) rho rho' x,
  set_lists xs vs rho = Some rho' -> ~ In x xs -> get x rho' = get x rho.
Proof.
  induction xs as [|y xs IH]; intros [|v vs] rho rho' x; cbn; intros H N;
    try discriminate.
  - congruence.
  - destruct (set_lists xs vs rho) eqn:E; [|discriminate].
    injection H as <-. rewrite get_set_other by (intro; subst; tauto).
    eapply IH; eauto.
Qed.

(* What erased terms mean, independently of their translation: substitution of
   closed terms, lifting, well-formedness and call-by-value evaluation, as in
   MetaRocq (ECSubst, ELiftSubst, EWellformed, EWcbvEval), for the variant the
   translation is applied to (theories/LambdaBoxMut/stripEvalCommute.v:33-68:
   constructors applied to all their arguments, no parameters, no axioms, no
   cofixpoints, no projections, no arrays; fixpoints unfold without guard). *)
From Coq Require Import List Arith String Bool.
From Verif Require Import LB_Model LM_Model EA_Model.
Import ListNotations.
Local Open Scope nat_scope.

(* Substitution of a closed term for variable [k] (ECSubst.csubst). *)
Fixpoint csubst (a : term) (k : nat) (t : term) : term :=
  match t with
  | tRel n =>
    match Nat.compare k n with
    | Datatypes.Eq => a
    | Gt => tRel n
    | Lt => tRel (pred n)
    end
  | tEvar e args => tEvar e (map (csubst a k) args)
  | tLambda nm b => tLambda nm (csubst a (1 + k) b)
  | tLetIn nm d b => tLetIn nm (csubst a k d) (csubst a (1 + k) b)
  | tApp f x => tApp (csubst a k f) (csubst a k x)
  | tConstruct i c args => tConstruct i c (map (csubst a k) args)
  | tCase i m brs =>
    tCase i (csubst a k m) (map (fun b => (fst b, csubst a (List.length (fst b) + k) (snd b))) brs)
  | tProj p b => tProj p (csubst a k b)
  | tFix mf i =>
    tFix (map (fun d => mkdef (dname d) (csubst a (List.length mf + k) (dbody d)) (rarg d)) mf) i
  | tCoFix mf i =>
    tCoFix (map (fun d => mkdef (dname d) (csubst a (List.length mf + k) (dbody d)) (rarg d)) mf) i
  | tArray d l => tArray (csubst a k d) (map (csubst a k) l)
  | tLazy t => tLazy (csubst a k t)
  | tForce t => tForce (csubst a k t)
  | tBox | tVar _ | tConst _ | tPrim _ => t
  end.

(* One more binder at [k] (ELiftSubst.lift 1 k). *)
Fixpoint elift (k : nat) (t : term) : term :=
  match t with
  | tRel n => if k <=? n then tRel (1 + n) else tRel n
  | tEvar e args => tEvar e (map (elift k) args)
  | tLambda nm b => tLambda nm (elift (1 + k) b)
  | tLetIn nm d b => tLetIn nm (elift k d) (elift (1 + k) b)
  | tApp f x => tApp (elift k f) (elift k x)
  | tConstruct i c args => tConstruct i c (map (elift k) args)
  | tCase i m brs =>
    tCase i (elift k m) (map (fun b => (fst b, elift (List.length (fst b) + k) (snd b))) brs)
  | tProj p b => tProj p (elift k b)
  | tFix mf i =>
    tFix (map (fun d => mkdef (dname d) (elift (List.length mf + k) (dbody d)) (rarg d)) mf) i
  | tCoFix mf i =>
    tCoFix (map (fun d => mkdef (dname d) (elift (List.length mf + k) (dbody d)) (rarg d)) mf) i
  | tArray d l => tArray (elift k d) (map (elift k) l)
  | tLazy t => tLazy (elift k t)
  | tForce t => tForce (elift k t)
  | tBox | tVar _ | tConst _ | tPrim _ => t
  end.

(* Substitution of a list, the head for variable 0 (ECSubst.substl). *)
Definition substl (l : list term) (t : term) : term :=
  fold_left (fun b a => csubst a 0 b) l t.

(* The selected branch: parameters dropped, the last argument is variable 0. *)
Definition iota_red (npar : nat) (args : list term) (br : list name * term) : term :=
  substl (List.rev (skipn npar args)) (snd br).

(* Unfolding of one component of a fixpoint. *)
Fixpoint fix_subst (mf : list (def term)) (n : nat) : list term :=
  match n with 0 => [] | S n => tFix mf n :: fix_subst mf n end.
Definition unfold_fix (mf : list (def term)) (i : nat) : option term :=
  match nth_error mf i with
  | Some d => Some (substl (fix_subst mf (List.length mf)) (dbody d))
  | None => None
  end.

(* Declarations. *)
Fixpoint lookup_env (G : global_context) (kn : kername) : option global_decl :=
  match G with
  | [] => None
  | (n, d) :: G => if String.eqb kn n then Some d else lookup_env G kn
  end.
Definition lookup_inductive (G : global_context) (i : inductive) : option (nat * (bool * list nat)) :=
  match lookup_env G (fst i) with
  | Some (InductiveDecl m) =>
    match nth_error (ind_bodies m) (snd i) with
    | Some b => Some (ind_npars m, b)
    | None => None
    end
  | _ => None
  end.
(* Parameters, propositional or not, number of proper arguments. *)
Definition lookup_constructor (G : global_context) (i : inductive) (c : nat) : option (nat * bool * nat) :=
  match lookup_inductive G i with
  | Some (np, (pr, cs)) =>
    match nth_error cs c with Some a => Some (np, pr, a) | None => None end
  | None => None
  end.

Definition is_lambda (t : term) : bool := match t with tLambda _ _ => true | _ => false end.

(* Well-formed terms under [k] binders. *)
Fixpoint wellformed (G : global_context) (k : nat) (t : term) : bool :=
  match t with
  | tBox => true
  | tRel n => n <? k
  | tLambda _ b => wellformed G (1 + k) b
  | tLetIn _ d b => wellformed G k d && wellformed G (1 + k) b
  | tApp f a => wellformed G k f && wellformed G k a
  | tConst c => match lookup_env G c with Some (ConstantDecl (Some _)) => true | _ => false end
  | tConstruct i c args =>
    match lookup_constructor G i c with
    | Some (np, _, a) => (np + a =? List.length args) && forallb (wellformed G k) args
    | None => false
    end
  | tCase i m brs =>
    match lookup_inductive G (fst i) with
    | Some (_, (_, cs)) =>
      (List.length brs =? List.length cs) && wellformed G k m &&
      forallb (fun b => wellformed G (List.length (fst b) + k) (snd b)) brs
    | None => false
    end
  | tFix mf i =>
    (i <? List.length mf) && forallb (fun d => is_lambda (dbody d)) mf &&
    forallb (fun d => wellformed G (List.length mf + k) (dbody d)) mf
  | tPrim _ => true
  | tLazy t => wellformed G k t
  | tForce t => wellformed G k t
  | tVar _ | tEvar _ _ | tProj _ _ | tCoFix _ _ | tArray _ _ => false
  end.

(* Well-formed declarations: fresh names, closed bodies over the declarations
   that follow in the list, no axioms, no parameters. *)
Fixpoint wf_glob (G : global_context) : bool :=
  match G with
  | [] => true
  | (n, d) :: G =>
    wf_glob G && match lookup_env G n with None => true | Some _ => false end &&
    match d with
    | ConstantDecl (Some t) => wellformed G 0 t
    | ConstantDecl None => false
    | InductiveDecl m => ind_npars m =? 0
    end
  end.

(* The head of a spine of applications. *)
Fixpoint head (t : term) : term := match t with tApp f _ => head f | _ => t end.

(* The values whose application is not a neutral term. *)
Definition app_blocks (t : term) : bool :=
  match t with tLambda _ _ | tFix _ _ | tBox => true | _ =>
    match head t with tConstruct _ _ _ | tPrim _ | tArray _ _ | tLazy _ => true | _ => false end
  end.

(* Call-by-value evaluation (EWcbvEval.eval with the flags above). *)
Inductive ev (G : global_context) : term -> term -> Prop :=
| ev_box : forall f a a', ev G f tBox -> ev G a a' -> ev G (tApp f a) tBox
| ev_beta : forall f nm b a a' r,
    ev G f (tLambda nm b) -> ev G a a' -> ev G (csubst a' 0 b) r -> ev G (tApp f a) r
| ev_zeta : forall nm d d' b r,
    ev G d d' -> ev G (csubst d' 0 b) r -> ev G (tLetIn nm d b) r
| ev_iota : forall i np m c args brs br a r,
    ev G m (tConstruct i c args) ->
    lookup_constructor G i c = Some (np, false, a) ->
    nth_error brs c = Some br ->
    List.length args = np + a ->
    List.length (skipn np args) = List.length (fst br) ->
    ev G (iota_red np args br) r ->
    ev G (tCase (i, np) m brs) r
| ev_fix : forall f mf i fn a a' r,
    ev G f (tFix mf i) -> unfold_fix mf i = Some fn -> ev G a a' ->
    ev G (tApp fn a') r -> ev G (tApp f a) r
| ev_delta : forall c b r,
    lookup_env G c = Some (ConstantDecl (Some b)) -> ev G b r -> ev G (tConst c) r
| ev_construct : forall i c np pr a args args',
    lookup_constructor G i c = Some (np, pr, a) -> List.length args <= np + a ->
    evs G args args' -> ev G (tConstruct i c args) (tConstruct i c args')
| ev_cong : forall f f' a a',
    ev G f f' -> app_blocks f' = false -> ev G a a' -> ev G (tApp f a) (tApp f' a')
| ev_prim : forall v, ev G (tPrim v) (tPrim v)
| ev_array : forall d d' l l', ev G d d' -> evs G l l' -> ev G (tArray d l) (tArray d' l')
| ev_force : forall t b r, ev G t (tLazy b) -> ev G b r -> ev G (tForce t) r
| ev_atom_box : ev G tBox tBox
| ev_atom_lambda : forall nm b, ev G (tLambda nm b) (tLambda nm b)
| ev_atom_fix : forall mf i, ev G (tFix mf i) (tFix mf i)
| ev_atom_cofix : forall mf i, ev G (tCoFix mf i) (tCoFix mf i)
| ev_atom_lazy : forall t, ev G (tLazy t) (tLazy t)
with evs (G : global_context) : list term -> list term -> Prop :=
| evs_nil : evs G [] []
| evs_cons : forall t t' l l', ev G t t' -> evs G l l' -> evs G (t :: l) (t' :: l').

Scheme ev_ind2 := Minimality for ev Sort Prop
  with evs_ind2 := Minimality for evs Sort Prop.
Combined Scheme ev_evs_ind from ev_ind2, evs_ind2.

(* No suspensions, and no parameters noted at case analyses. *)
Fixpoint strict (t : term) : bool :=
  match t with
  | tLazy _ | tForce _ => false
  | tEvar _ l => forallb strict l
  | tLambda _ b => strict b
  | tLetIn _ d b => strict d && strict b
  | tApp f a => strict f && strict a
  | tConstruct _ _ l => forallb strict l
  | tCase i m brs => (snd i =? 0) && strict m && forallb (fun b => strict (snd b)) brs
  | tProj _ b => strict b
  | tFix mf _ | tCoFix mf _ => forallb (fun d => strict (dbody d)) mf
  | tArray d l => strict d && forallb strict l
  | tBox | tRel _ | tVar _ | tConst _ | tPrim _ => true
  end.
Fixpoint strict_env (G : global_context) : bool :=
  match G with
  | [] => true
  | (_, ConstantDecl (Some t)) :: G => strict t && strict_env G
  | _ :: G => strict_env G
  end.

(* No case analysis on a propositional inductive type (a phase of erasure
   removes them). *)
Fixpoint no_prop (G : global_context) : bool :=
  match G with
  | [] => true
  | (_, InductiveDecl m) :: G => forallb (fun b => negb (fst b)) (ind_bodies m) && no_prop G
  | _ :: G => no_prop G
  end.

(* Data and their translation: constructors of data, proofs and literals. *)
Inductive translated : term -> Term -> Prop :=
| td_box : translated tBox TProof
| td_prim : forall v, translated (tPrim v) (TPrim v)
| td_con : forall i c l ts, translateds l ts -> translated (tConstruct i c l) (TConstruct i c ts)
with translateds : list term -> Terms -> Prop :=
| td_nil : translateds [] tnil
| td_cons : forall t u l ts, translated t u -> translateds l ts -> translateds (t :: l) (tcons u ts).

(* Constructs the translation supports. *)
Fixpoint supported (t : term) : bool :=
  match t with
  | tVar _ | tEvar _ _ | tProj _ _ | tCoFix _ _ | tArray _ _ => false
  | tLambda _ b => supported b
  | tLetIn _ d b => supported d && supported b
  | tApp f a => supported f && supported a
  | tConstruct _ _ l => forallb supported l
  | tCase _ m brs => supported m && forallb (fun b => supported (snd b)) brs
  | tFix mf _ => forallb (fun d => supported (dbody d)) mf
  | tLazy t | tForce t => supported t
  | tBox | tRel _ | tConst _ | tPrim _ => true
  end.

(* Erased-language terms without an error node. *)
Fixpoint no_wrong (t : Term) : bool :=
  match t with
  | TWrong _ => false
  | TLambda _ b => no_wrong b
  | TLetIn _ d b => no_wrong d && no_wrong b
  | TApp f a => no_wrong f && no_wrong a
  | TConstruct _ _ l => no_wrongs l
  | TCase _ m bs => no_wrong m && no_wrongBs bs
  | TFix ds _ => no_wrongDs ds
  | TRel _ | TProof | TConst _ | TPrim _ => true
  end
with no_wrongs (l : Terms) : bool :=
  match l with tnil => true | tcons t l => no_wrong t && no_wrongs l end
with no_wrongBs (l : Brs) : bool :=
  match l with bnil => true | bcons _ t l => no_wrong t && no_wrongBs l end
with no_wrongDs (l : Defs) : bool :=
  match l with dnil => true | dcons _ t _ l => no_wrong t && no_wrongDs l end.

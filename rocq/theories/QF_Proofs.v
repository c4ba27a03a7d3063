(** * The surgery gives what the compiled code expects *)
From Coq Require Import ZArith List Bool.
From Verif Require Import QF_Model QF_Spec.
Import ListNotations.

Section TERM_IND.
Variable P : term -> Prop.
Hypothesis Hrel : forall n, P (tRel n).
Hypothesis Hvar : forall n, P (tVar n).
Hypothesis Hevar : forall k l, Forall P l -> P (tEvar k l).
Hypothesis Hsort : forall s, P (tSort s).
Hypothesis Hcast : forall a k b, P a -> P b -> P (tCast a k b).
Hypothesis Hprod : forall n a b, P a -> P b -> P (tProd n a b).
Hypothesis Hlam : forall n a b, P a -> P b -> P (tLambda n a b).
Hypothesis Hlet : forall n a b c, P a -> P b -> P c -> P (tLetIn n a b c).
Hypothesis Happ : forall f l, P f -> Forall P l -> P (tApp f l).
Hypothesis Hconst : forall c u, P (tConst c u).
Hypothesis Hind : forall c u, P (tInd c u).
Hypothesis Hcon : forall c k u, P (tConstruct c k u).
Hypothesis Hcase : forall ci pu ps pc r c brs,
  Forall P ps -> P r -> P c -> Forall (fun b => P (snd b)) brs -> P (tCase ci pu ps pc r c brs).
Hypothesis Hproj : forall p t, P t -> P (tProj p t).
Hypothesis Hfix : forall m i, Forall (fun '(_, t, b, _) => P t /\ P b) m -> P (tFix m i).
Hypothesis Hcofix : forall m i, Forall (fun '(_, t, b, _) => P t /\ P b) m -> P (tCoFix m i).
Hypothesis Hint : forall i, P (tInt i).
Hypothesis Hfloat : forall i, P (tFloat i).
Hypothesis Hstring : forall i, P (tString i).
Hypothesis Harray : forall u v d t, Forall P v -> P d -> P t -> P (tArray u v d t).

Fixpoint term_ind' (t : term) : P t :=
  let all := fix all (l : list term) : Forall P l :=
    match l with [] => Forall_nil _ | x :: r => Forall_cons x (term_ind' x) (all r) end in
  let allb := fix allb (l : list (obj * term)) : Forall (fun b => P (snd b)) l :=
    match l with [] => Forall_nil _ | x :: r => Forall_cons x (term_ind' (snd x)) (allb r) end in
  let alld := fix alld (l : list (obj * term * term * obj)) : Forall (fun '(_, t, b, _) => P t /\ P b) l :=
    match l with
    | [] => Forall_nil _
    | (n, t, b, r0) as x :: r =>
        Forall_cons (P := fun '(_, t, b, _) => P t /\ P b) (n, t, b, r0) (conj (term_ind' t) (term_ind' b)) (alld r)
    end in
  match t with
  | tRel n => Hrel n | tVar n => Hvar n | tEvar k l => Hevar k l (all l) | tSort s => Hsort s
  | tCast a k b => Hcast a k b (term_ind' a) (term_ind' b)
  | tProd n a b => Hprod n a b (term_ind' a) (term_ind' b)
  | tLambda n a b => Hlam n a b (term_ind' a) (term_ind' b)
  | tLetIn n a b c => Hlet n a b c (term_ind' a) (term_ind' b) (term_ind' c)
  | tApp f l => Happ f l (term_ind' f) (all l)
  | tConst c u => Hconst c u | tInd c u => Hind c u | tConstruct c k u => Hcon c k u
  | tCase ci pu ps pc r c brs => Hcase ci pu ps pc r c brs (all ps) (term_ind' r) (term_ind' c) (allb brs)
  | tProj p t => Hproj p t (term_ind' t)
  | tFix m i => Hfix m i (alld m) | tCoFix m i => Hcofix m i (alld m)
  | tInt i => Hint i | tFloat i => Hfloat i | tString i => Hstring i
  | tArray u v d t => Harray u v d t (all v) (term_ind' d) (term_ind' t)
  end.
End TERM_IND.

Definition when (b : bool) (x : obj) : option obj := if b then Some x else None.

Lemma when_true x : when true x = Some x.
Proof. reflexivity. Qed.

Lemma bind_when (C : Type) b x (f : obj -> option C) : bind (when b x) f = if b then f x else None.
Proof. destruct b; reflexivity. Qed.

Lemma map_list_ok (A : Type) (f : obj -> option obj) (g h : A -> obj) (ok : A -> bool) (l : list A) :
  Forall (fun a => f (g a) = when (ok a) (h a)) l ->
  map_list f (rlist (map g l)) = when (forallb ok l) (rlist (map h l)).
Proof.
  induction 1 as [|a l H _ IH]; [reflexivity|]. cbn. rewrite H, IH, bind_when.
  destruct (ok a); [|reflexivity]. rewrite bind_when. destruct (forallb ok l); reflexivity.
Qed.

Lemma sort_ok s : fix_universe (rsort false s) = Some (rsort true s).
Proof. destruct s; reflexivity. Qed.

Definition good (lits : bool) (t : term) : bool := lits || literal_free t.

Lemma good_forall lits (l : list term) : forallb (good lits) l = lits || forallb literal_free l.
Proof.
  unfold good. induction l; cbn; [destruct lits; reflexivity|]. rewrite IHl. destruct lits; reflexivity.
Qed.

Section LOOPS.
Variable lits : bool.

(** the inner loops of [fix_term], as [map_list] *)
Lemma loop_term l : Forall (fun t => fix_term lits (rterm false t) = when (good lits t) (rterm true t)) l ->
  (fix map_term (l : obj) : option obj :=
    match l with
    | I 0 => Some (I 0)
    | B 0 [x; r] => do x' <- fix_term lits x; do r' <- map_term r; Some (B 0 [x'; r'])
    | _ => None
    end) (rlist (map (rterm false) l)) = when (forallb (good lits) l) (rlist (map (rterm true) l)).
Proof.
  induction 1 as [|t l H _ IH]; [reflexivity|]. cbn [map rlist forallb] in *. rewrite H, IH, bind_when.
  destruct (good lits t); [|reflexivity]. rewrite bind_when. destruct (forallb _ l); reflexivity.
Qed.

Lemma loop_branch (l : list (obj * term)) :
  Forall (fun b => fix_term lits (rterm false (snd b)) = when (good lits (snd b)) (rterm true (snd b))) l ->
  (fix map_branch (l : obj) : option obj :=
    match l with
    | I 0 => Some (I 0)
    | B 0 [B 0 [bcontext; bbody]; r] =>
        do b <- fix_term lits bbody; do r' <- map_branch r; Some (B 0 [B 0 [bcontext; b]; r'])
    | _ => None
    end) (rlist (map (fun b => B 0 [fst b; rterm false (snd b)]) l))
  = when (forallb (fun b => good lits (snd b)) l) (rlist (map (fun b => B 0 [fst b; rterm true (snd b)]) l)).
Proof.
  induction 1 as [|[n t] l H _ IH]; [reflexivity|]. cbn [map rlist fst snd forallb] in *. rewrite H, IH, bind_when.
  destruct (good lits t); [|reflexivity]. rewrite bind_when. destruct (forallb _ l); reflexivity.
Qed.

Lemma loop_def (l : list (obj * term * term * obj)) :
  Forall (fun '(_, t, b, _) => fix_term lits (rterm false t) = when (good lits t) (rterm true t)
                            /\ fix_term lits (rterm false b) = when (good lits b) (rterm true b)) l ->
  (fix map_def (l : obj) : option obj :=
    match l with
    | I 0 => Some (I 0)
    | B 0 [B 0 [dname; dtype; dbody; rarg]; r] =>
        do t <- fix_term lits dtype; do b <- fix_term lits dbody;
        do r' <- map_def r; Some (B 0 [B 0 [dname; t; b; rarg]; r'])
    | _ => None
    end) (rlist (map (fun '(n, t, b, r) => B 0 [n; rterm false t; rterm false b; r]) l))
  = when (forallb (fun '(_, t, b, _) => good lits t && good lits b) l)
      (rlist (map (fun '(n, t, b, r) => B 0 [n; rterm true t; rterm true b; r]) l)).
Proof.
  induction 1 as [|[[[n t] b] r] l [H1 H2] _ IH]; [reflexivity|]. cbn [map rlist forallb] in *.
  rewrite H1, H2, IH, bind_when.
  destruct (good lits t); [|reflexivity]. rewrite bind_when. destruct (good lits b); [|reflexivity].
  rewrite bind_when. cbn [andb]. destruct (forallb _ l); reflexivity.
Qed.
End LOOPS.

Lemma good_branches lits (l : list (obj * term)) :
  forallb (fun b => good lits (snd b)) l = lits || forallb (fun b => literal_free (snd b)) l.
Proof. unfold good. induction l; cbn; [destruct lits; reflexivity|]. rewrite IHl. destruct lits; reflexivity. Qed.

Lemma good_defs lits (l : list (obj * term * term * obj)) :
  forallb (fun '(_, t, b, _) => good lits t && good lits b) l
  = lits || forallb (fun '(_, t, b, _) => literal_free t && literal_free b) l.
Proof.
  unfold good. induction l as [|[[[n t] b] r] l IHl]; cbn; [destruct lits; reflexivity|].
  rewrite IHl. destruct lits; reflexivity.
Qed.

Ltac finish lits :=
  unfold good; cbn [literal_free]; destruct lits; cbn [orb andb]; rewrite ?when_true; cbn [bind]; try reflexivity;
  repeat first [rewrite bind_when | reflexivity | match goal with |- context[if ?b then _ else _] => destruct b end];
  rewrite ?andb_false_r; reflexivity.

Lemma term_ok lits t : fix_term lits (rterm false t) = when (good lits t) (rterm true t).
Proof.
  induction t using term_ind'; cbn [rterm fix_term];
    try (rewrite loop_term by assumption); try (rewrite loop_branch by assumption);
    try (rewrite loop_def by assumption);
    rewrite ?sort_ok, ?good_forall, ?good_branches, ?good_defs;
    repeat match goal with H : fix_term lits _ = _ |- _ => rewrite H; clear H end;
    try finish lits.
Qed.

Definition all_good (lits : bool) (l : list term) : bool := forallb (good lits) l.

Lemma all_good_app lits l m : all_good lits (l ++ m) = all_good lits l && all_good lits m.
Proof. apply forallb_app. Qed.

Lemma all_good_flat (A : Type) lits (f : A -> list term) l :
  all_good lits (flat_map f l) = forallb (fun a => all_good lits (f a)) l.
Proof. induction l; [reflexivity|]. cbn [flat_map forallb]. rewrite all_good_app, IHl. reflexivity. Qed.

Lemma all_good_map (A : Type) lits (f : A -> term) l : all_good lits (map f l) = forallb (fun a => good lits (f a)) l.
Proof. induction l; cbn; [reflexivity|]. unfold all_good in IHl. rewrite IHl. reflexivity. Qed.

Lemma all_good_cons lits t l : all_good lits (t :: l) = good lits t && all_good lits l.
Proof. reflexivity. Qed.

Lemma option_ok lits b :
  fix_option (fix_term lits) (roption (option_map (rterm false) b))
  = when (all_good lits (opt_terms b)) (roption (option_map (rterm true) b)).
Proof.
  destruct b as [t|]; [|reflexivity]. cbn. rewrite term_ok, bind_when. destruct (good lits t); reflexivity.
Qed.

Lemma terms_ok lits l :
  map_list (fix_term lits) (rlist (map (rterm false) l)) = when (all_good lits l) (rlist (map (rterm true) l)).
Proof. apply map_list_ok. apply Forall_forall. intros t _. apply term_ok. Qed.

Ltac steps :=
  repeat (rewrite bind_when;
          match goal with |- context[if ?b then _ else _] => destruct b; cbn [andb when]; rewrite ?andb_false_r; [|reflexivity] end).

Lemma ctx_ok lits l : fix_rel_context lits (rctx false l) = when (all_good lits (ctx_terms l)) (rctx true l).
Proof.
  unfold fix_rel_context, rctx, ctx_terms. rewrite all_good_flat. apply map_list_ok. apply Forall_forall. intros d _.
  cbn [rctx_decl fix_ctx_decl]. unfold rctx_decl, fix_ctx_decl. rewrite option_ok, term_ok, all_good_cons.
  rewrite andb_comm. steps. reflexivity.
Qed.

Lemma universes_ok u : fix_universes_decl (runiverses false u) = Some (runiverses true u).
Proof. destruct u; reflexivity. Qed.

Lemma constructor_ok lits c :
  fix_constructor lits (rconstructor false c)
  = when (all_good lits (ctx_terms (k_args c) ++ k_indices c ++ [k_type c])) (rconstructor true c).
Proof.
  unfold fix_constructor, rconstructor. rewrite ctx_ok, terms_ok, term_ok, !all_good_app, all_good_cons.
  change (all_good lits []) with true. rewrite andb_true_r. steps. reflexivity.
Qed.

Lemma projection_ok lits p :
  fix_projection lits (rprojection false p) = when (good lits (p_type p)) (rprojection true p).
Proof. unfold fix_projection, rprojection. rewrite term_ok. steps. reflexivity. Qed.

Lemma ind_body_ok lits i : fix_ind_body lits (rind_body false i) = when (all_good lits (ind_terms i)) (rind_body true i).
Proof.
  unfold fix_ind_body, rind_body, ind_terms.
  rewrite (map_list_ok _ _ _ (rconstructor true) (fun c => all_good lits (ctx_terms (k_args c) ++ k_indices c ++ [k_type c])) (i_ctors i))
    by (apply Forall_forall; intros c _; apply constructor_ok).
  rewrite (map_list_ok _ _ _ (rprojection true) (fun c => good lits (p_type c)) (i_projs i))
    by (apply Forall_forall; intros c _; apply projection_ok).
  rewrite ctx_ok, sort_ok, term_ok, !all_good_app, all_good_cons, all_good_flat, all_good_map.
  change (all_good lits []) with true. rewrite andb_true_r. cbn [bind].
  rewrite bind_when. destruct (all_good lits (ctx_terms (i_indices i))); [|reflexivity]. cbn [bind andb].
  steps. reflexivity.
Qed.

Lemma decl_ok lits kn d :
  fix_decl lits (B 0 [kn; rdecl false d]) = when (all_good lits (decl_terms d)) (B 0 [kn; rdecl true d]).
Proof.
  destruct d as [t b u r|f n ps bs u v]; cbn [rdecl fix_decl decl_terms].
  - rewrite term_ok, option_ok, universes_ok, all_good_cons. steps. reflexivity.
  - rewrite ctx_ok, universes_ok, all_good_app, all_good_flat.
    rewrite (map_list_ok _ _ _ (rind_body true) (fun i => all_good lits (ind_terms i)) bs)
      by (apply Forall_forall; intros c _; apply ind_body_ok).
    steps. reflexivity.
Qed.

Lemma program_ok lits p :
  fix_quoted_program lits (in_ocaml p) = when (all_good lits (program_terms p)) (in_compiled p).
Proof.
  unfold in_ocaml, in_compiled, rprogram, fix_quoted_program, program_terms. rewrite term_ok, all_good_cons, all_good_flat.
  rewrite (map_list_ok _ _ (fun d => B 0 [fst d; rdecl false (snd d)]) (fun d => B 0 [fst d; rdecl true (snd d)])
             (fun d => all_good lits (decl_terms (snd d))) (g_decls p))
    by (apply Forall_forall; intros [kn d] _; apply decl_ok).
  rewrite bind_when. destruct (good lits (g_main p)); [|reflexivity]. cbn [andb fix_universes bind].
  steps. reflexivity.
Qed.

Lemma all_good_true l : all_good true l = true.
Proof. induction l; [reflexivity|]. exact IHl. Qed.

Lemma all_good_false l : all_good false l = forallb literal_free l.
Proof. reflexivity. Qed.


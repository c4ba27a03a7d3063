(** * The passes of the LambdaANF pipeline, on one state

    Source: theories/LambdaANF/toplevel.v:165-217, theories/LambdaANF/inline.v.

    Comp_Model.v has the pipeline for arbitrary passes; here are the passes it
    runs.  Each of them is modelled in a file of its own, on the part of the
    compilation state it uses; here the parts are put back into the state.  The
    table of printed names and the log are kept only where the model of a pass
    has them: no pass takes a decision on them. *)
From Coq Require Import ZArith NArith PArith List Lia Bool String.
From Verif Require Import ANF_Syntax ANF_Subst Comp_Model.
From Verif Require Inline_Model Shrink_Model UC_Model LL_Model CC_Model Hoist_Model DPE_Model.
Import ListNotations.
Local Open Scope nat_scope.

Notation InlineHeuristic := Inline_Model.InlineHeuristic.
Notation r_map := Inline_Model.r_map.

(** ** Heuristics *)

(** theories/LambdaANF/inline.v:261-286 *)
Definition CombineInlineHeuristic {St1 St2 : Type} (deci : bool -> bool -> bool)
    (IH1 : InlineHeuristic St1) (IH2 : InlineHeuristic St2) : InlineHeuristic (St1 * St2) :=
  {| Inline_Model.update_funDef := fun fds sigma (s : St1 * St2) =>
       let (s1, s2) := s in
       let (s11, s12) := Inline_Model.update_funDef IH1 fds sigma s1 in
       let (s21, s22) := Inline_Model.update_funDef IH2 fds sigma s2 in
       ((s11, s21), (s12, s22));
     Inline_Model.update_inFun := fun f t xs e sigma (s : St1 * St2) =>
       let (s1, s2) := s in
       (Inline_Model.update_inFun IH1 f t xs e sigma s1, Inline_Model.update_inFun IH2 f t xs e sigma s2);
     Inline_Model.update_App := fun f t ys (s : St1 * St2) =>
       let (s1, s2) := s in
       let (s1', b1) := Inline_Model.update_App IH1 f t ys s1 in
       let (s2', b2) := Inline_Model.update_App IH2 f t ys s2 in
       ((s1', s2'), deci b1 b2);
     Inline_Model.update_letApp := fun f t ys (s : St1 * St2) =>
       let (s1, s2) := s in
       let '(s1', s1'', b1) := Inline_Model.update_letApp IH1 f t ys s1 in
       let '(s2', s2'', b2) := Inline_Model.update_letApp IH2 f t ys s2 in
       ((s1', s2'), (s1'', s2''), deci b1 b2) |}.

(** theories/LambdaANF/inline.v:288-295, 301-312 *)
Fixpoint do_inline (f : var) (e : exp) : bool :=
  match e with
  | Econstr _ _ _ e | Eproj _ _ _ _ e | Eprim_val _ _ e | Eprim _ _ _ e => do_inline f e
  | Ecase _ _ => false
  | Efun fns e => do_inline_funs f fns && do_inline f e
  | Eletapp _ f' _ _ e => negb (Pos.eqb f f') && do_inline f e
  | Eapp f' _ _ => negb (Pos.eqb f f')
  | Ehalt _ => true
  end
with do_inline_funs (f : var) (fns : fundefs) : bool :=
  match fns with
  | Fnil => true
  | Fcons _ _ _ e tl => do_inline f e && do_inline_funs f tl
  end.

(** theories/LambdaANF/inline.v:318-325 *)
Fixpoint upd_small (bound : nat) (fds : fundefs) (s : tmap bool) : tmap bool :=
  match fds with
  | Fcons f t xs e fdc' =>
      if (Nat.ltb (Shrink_Model.term_size e) bound && do_inline f e)%bool
      then upd_small bound fdc' (set f true s) else upd_small bound fdc' s
  | Fnil => s
  end.

(** theories/LambdaANF/inline.v:315-338 *)
Definition InlineSmall (bound : nat) : InlineHeuristic (tmap bool) :=
  {| Inline_Model.update_funDef := fun fds sigma s => let s' := upd_small bound fds s in (s', s');
     Inline_Model.update_inFun := fun f t xs e sigma s => mremove f s;
     Inline_Model.update_App := fun f t ys s =>
       match get f s with Some true => (mremove f s, true) | _ => (s, false) end;
     Inline_Model.update_letApp := fun f t ys s =>
       match get f s with Some true => (mremove f s, s, true) | _ => (s, s, false) end |}.

(** theories/LambdaANF/inline.v:342-359 *)
Definition InlinedUncurriedMarked : InlineHeuristic (tmap nat) :=
  {| Inline_Model.update_funDef := fun fds sigma s => (s, s);
     Inline_Model.update_inFun := fun f t xs e sigma s => s;
     Inline_Model.update_App := fun f t ys s =>
       match get f s with Some 1 => (s, true) | Some 2 => (s, true) | _ => (s, false) end;
     Inline_Model.update_letApp := fun f t ys s =>
       match get f s with Some 1 => (s, s, true) | Some 2 => (s, s, true) | _ => (s, s, false) end |}.

(** theories/LambdaANF/inline.v:427-428 *)
Definition InlineSmallOrUncurried (bound : nat) : InlineHeuristic (tmap bool * tmap nat) :=
  CombineInlineHeuristic orb (InlineSmall bound) InlinedUncurriedMarked.

(** theories/LambdaANF/inline.v:440-454 *)
Fixpoint is_wrapper (e : exp) : option var :=
  match e with
  | Econstr _ _ _ e | Eproj _ _ _ _ e | Eprim_val _ _ e | Eprim _ _ _ e => is_wrapper e
  | Eletapp _ _ _ _ e => None
  | Ecase _ _ | Ehalt _ | Efun _ _ => None
  | Eapp g _ _ => Some g
  end.

(** theories/LambdaANF/inline.v:440, 455-458 *)
Definition find_indirect_call (f : var) (e : exp) (s : tmap bool) : tmap bool :=
  match is_wrapper e with None => s | Some g => set g true s end.

(** theories/LambdaANF/inline.v:461-474 *)
Definition InineLifted : InlineHeuristic (tmap bool) :=
  {| Inline_Model.update_funDef := fun fds sigma s => (s, s);
     Inline_Model.update_inFun := fun f t xs e sigma s => mremove f (find_indirect_call f e s);
     Inline_Model.update_App := fun f t ys s =>
       match get f s with Some true => (s, true) | _ => (s, false) end;
     Inline_Model.update_letApp := fun f t ys s =>
       match get f s with Some true => (s, s, true) | _ => (s, s, false) end |}.

(** ** The inlining passes *)
Section Inline.
  Variable St : Type.
  Variable IH : InlineHeuristic St.

  (** theories/LambdaANF/inline.v:207-224: the counter of names and the table of
      printed names start afresh (the table is not filled again here) *)
  Definition inline_top' (mv : var) (d : nat) (s : St) (e : exp) (c : comp_data) : error exp * comp_data * bool :=
    let (e', w) := Inline_Model.inline_top' St IH mv d s e in
    (Ret e',
     mkCompData (Inline_Model.next_var w) (nect_ctor_tag c) (next_ind_tag c) (next_fun_tag c) (cenv c) (fenv c) []
       (inline_map c) (log c),
     Inline_Model.clicked w).

  (** theories/LambdaANF/inline.v:226-228 *)
  Definition inline_top (mv : var) (d : nat) (s : St) (e : exp) (c : comp_data) : error exp * comp_data :=
    let '(e', st', _) := inline_top' mv d s e c in (e', st').

  (** [fst (shrink_top e)]: theories/LambdaANF/shrink_cps.v:1425-1429; the model
      of the reducer recurses on fuel and always answers (C71_total) *)
  Definition shrunk (e : exp) : exp :=
    match Shrink_Model.shrink_top e with Some (e', _) => e' | None => e end.

  (** theories/LambdaANF/inline.v:232-243 *)
  Fixpoint inline_loop_aux (mv : var) (fuel : nat) (d : nat) (s : St) (e : exp) (c : comp_data) : error exp * comp_data :=
    match fuel with
    | 0 => (Ret e, c)
    | S fuel =>
        let '(e', c', click) := inline_top' mv d s e c in
        match e' with
        | Ret e' => if click then inline_loop_aux mv fuel d s (shrunk e') c' else (Ret (shrunk e'), c')
        | Err s => (Err s, c')
        end
    end.

  (** theories/LambdaANF/inline.v:245 *)
  Definition inline_loop (mv : var) (d : nat) (s : St) (e : exp) (c : comp_data) := inline_loop_aux mv 1000 d s e c.
End Inline.

(** theories/LambdaANF/inline.v:430-432 *)
Definition inline_uncurry (mv : var) (bound d : nat) : anf_trans := fun e c =>
  inline_top _ (InlineSmallOrUncurried bound) mv d ([], inline_map c) e c.

(** theories/LambdaANF/inline.v:435-436 *)
Definition inline_shrink_loop (mv : var) (bound d : nat) : anf_trans := fun e c =>
  inline_loop _ (InlineSmall bound) mv d [] e c.

(** theories/LambdaANF/inline.v:476-477 *)
Definition inline_lifted (mv : var) (bound d : nat) : anf_trans := fun e c =>
  inline_top _ InineLifted mv d [] e c.

(** ** The other passes *)

(** theories/LambdaANF/shrink_cps.v:1431 *)
Definition shrink_err : anf_trans := fun e c => (Ret (shrunk e), c).

(** theories/LambdaANF/lambda_lifting.v:511-516 *)
Definition lambda_lift (args no_push : nat) (inl : bool) : anf_trans := fun e c =>
  match LL_Model.lambda_lift args no_push inl e (LL_Model.mkl (next_var c) (next_fun_tag c) (fenv c)) with
  | Some (e', s) =>
      (Ret e', mkCompData (LL_Model.lv_var s) (nect_ctor_tag c) (next_ind_tag c) (LL_Model.lv_tag s) (cenv c)
                 (LL_Model.lv_tbl s) (nenv c) (inline_map c) (log c))
  | None => (Err "lambda lifting", c)
  end.

(** theories/LambdaANF/hoisting.v:97-102 *)
Definition closure_conversion_hoist (clo_tag : ctor_tag) (clo_itag : ind_tag) : anf_trans := fun e c =>
  let (e', s) := CC_Model.closure_conversion_top clo_tag clo_itag e
                   (CC_Model.mkst (next_var c) (nect_ctor_tag c) (next_ind_tag c) (cenv c)) in
  (Ret (fst (Hoist_Model.exp_hoist e')),
   mkCompData (CC_Model.nv s) (CC_Model.nct s) (CC_Model.nit s) (next_fun_tag c) (CC_Model.tbl s) (fenv c) (nenv c)
     (inline_map c) (log c)).

(** theories/LambdaANF/dead_param_elim.v:394-416 *)
Definition DPE : anf_trans := fun e c =>
  let (e', s) := DPE_Model.DPE e {| DPE_Model.next_fun_tag := next_fun_tag c; DPE_Model.fenv := fenv c |} in
  (Ret e', mkCompData (next_var c) (nect_ctor_tag c) (next_ind_tag c) (DPE_Model.next_fun_tag s) (cenv c)
             (DPE_Model.fenv s) (nenv c) (inline_map c) (log c)).

(** theories/LambdaANF/toplevel.v:170-197: the passes called by the pipeline *)
Definition passes : anf_passes :=
  {| Comp_Model.shrink_err := shrink_err;
     Comp_Model.uncurry_top := UC_Model.uncurry_proto_top;
     Comp_Model.inline_uncurry := inline_uncurry;
     Comp_Model.inline_shrink_loop := inline_shrink_loop;
     Comp_Model.lambda_lift := lambda_lift;
     Comp_Model.closure_conversion_hoist := closure_conversion_hoist;
     Comp_Model.DPE := DPE;
     Comp_Model.inline_lifted := inline_lifted |}.

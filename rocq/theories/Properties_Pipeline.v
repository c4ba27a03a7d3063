(** * C74, C75: the whole LambdaANF pipeline *)
From Coq Require Import ZArith NArith PArith List Lia Bool Arith String.
From Verif Require Import ANF_Syntax ANF_Eval ANF_Spec ANF_Scope ANF_EvalProofs ANF_FreeProofs CC_Spec Comp_Model Comp_Proofs Pipe_Model Pipe_Spec Pipe_Steps Pipe_Main.
From Verif Require Properties_Comp.
Import ListNotations.

(** What the pipeline is given: a closed program in which names are bound once; a
    table of constructors in which all tags are smaller than the next one, and
    which does not yet have the tag of closures
    (theories/LambdaANF/toplevel.v:41-47: the front end starts at tag 99). *)
Definition source_ok (cenv : ctor_env) (ctag : ctor_tag) (e : exp) : Prop :=
  whole e /\ tags_below ctag cenv /\ (clo_tag < ctag)%positive /\ get clo_tag cenv = None.

Lemma pipeline_start cenv ctag itag nenv fenv e : source_ok cenv ctag e ->
  good 1 (initial_data cenv ctag itag nenv fenv e) e /\ tables clo_tag (initial_data cenv ctag itag nenv fenv e).
Proof.
  intros ((ND & CL) & T). split; [|exact T].
  destruct (Properties_Comp.C25_max_var e 1) as (_ & M1 & M2).
  constructor; cbn [initial_data next_var]; auto; try lia.
  intros x I. specialize (M2 x (or_introl I)). lia.
Qed.

(** ** C74: the optimised and closure-converted program does what the source does *)
Theorem C74_pipeline : forall nv opts cenv ctag itag nenv fenv e, source_ok cenv ctag e ->
  (* it answers, *)
  exists cenv' ctag' itag' nenv' fenv' e' log,
    run_anf_pipeline passes nv opts (cenv, ctag, itag, nenv, fenv, e) = (Ret (cenv', ctag', itag', nenv', fenv', e'), log) /\
    (* with a program of the same behaviour: results, divergence, and nothing else *)
    implements (compiled clo_tag) cenv e cenv' e' /\
    (* results made of constructors and numbers are the same *)
    (forall c v, data v -> bstep_fuel cenv [] e c (Res v) -> exists c', bstep_fuel cenv' [] e' c' (Res v)).
Proof.
  intros nv opts cenv ctag itag nenv fenv e SO.
  destruct (pipeline_start cenv ctag itag nenv fenv e SO) as [G T].
  destruct (pipeline_converts 1 nv opts _ _ G T) as (e' & c' & H & _ & _ & _ & IM).
  unfold run_anf_pipeline. rewrite H. destruct c' as [n1 n2 n3 n4 ce fe ne im lg].
  exists ce, n2, n3, ne, fe, e', (log_to_string lg). split; [reflexivity|]. cbn [Comp_Model.cenv initial_data] in IM.
  split; [exact IM|]. intros c v D B. destruct (proj1 IM c v B) as (c' & v' & B' & V).
  rewrite (compiled_data _ v D v' V) in B'. eauto.
Qed.
Print Assumptions C74_pipeline.

(** ** C75: names and tables *)
Theorem C75_pipeline_names : forall nv opts cenv ctag itag nenv fenv e, source_ok cenv ctag e ->
  forall cenv' ctag' itag' nenv' fenv' e' log,
    run_anf_pipeline passes nv opts (cenv, ctag, itag, nenv, fenv, e) = (Ret (cenv', ctag', itag', nenv', fenv', e'), log) ->
  (* still closed and every name bound once *)
  whole e' /\
  (* no name is one of the reserved ones *)
  (forall x, In x (bv e') -> (nv < x)%positive) /\
  (* the constructors of the source are what they were *)
  (forall t i, get t cenv = Some i -> get t cenv' = Some i) /\ tags_below ctag' cenv'.
Proof.
  intros nv opts cenv ctag itag nenv fenv e SO cenv' ctag' itag' nenv' fenv' e' log.
  destruct (pipeline_start cenv ctag itag nenv fenv e SO) as [G T].
  destruct (pipeline_converts 1 nv opts _ _ G T) as (e1 & c1 & H & G1 & X1 & X2 & _).
  unfold run_anf_pipeline. rewrite H. destruct c1 as [n1 n2 n3 n4 ce fe ne im lg]. intro K. injection K as <- <- <- <- <- <- _.
  cbn [Comp_Model.cenv initial_data nect_ctor_tag] in *. destruct G1 as [A1 A2 A3 A4 A5 A6].
  split; [split; auto|]. split; [|split; [exact X1|exact X2]]. intros x I. specialize (A3 x I). lia.
Qed.
Print Assumptions C75_pipeline_names.

(** ** An example: curried addition of unary numbers *)
Local Open Scope positive_scope.
Definition p_ctor (ar ord : N) : ctor_ty_info :=
  {| ctor_ind_tag := 100; ctor_arity := ar; ctor_ordinal := ord |}.
Definition p_cenv : ctor_env := [(100, p_ctor 0 0); (101, p_ctor 1 1)].
Definition p_add : fundefs :=
  Fcons 10 3 [11]
    (Efun (Fcons 12 3 [13]
       (Ecase 11 [(100, Ehalt 13);
                  (101, Eproj 14 101 0 11 (Eletapp 15 10 3 [14] (Eletapp 16 15 3 [13] (Econstr 17 101 [16] (Ehalt 17)))))]) Fnil)
       (Ehalt 12)) Fnil.
Definition p_prog : exp :=
  Efun p_add
    (Econstr 20 100 [] (Econstr 21 101 [20] (Econstr 22 101 [21]
      (Eletapp 23 10 3 [22] (Eletapp 24 23 3 [21] (Ehalt 24)))))).
Definition p_opts (lift before after known dpe : bool) : anf_options :=
  {| o_time := false; o_cps := false; do_lambda_lift := lift; o_args := 5; no_push := 5; inl_wrappers := true;
     inl_known := known; inl_before := before; inl_after := after; o_dpe := dpe |}.
Definition p_out (o : anf_options) : option (ctor_env * exp) :=
  match fst (run_anf_pipeline passes 100 o (p_cenv, 102, 101, [], [(3, (1%N, [0%N]))], p_prog)) with
  | Ret (ce, _, _, _, _, e) => Some (ce, e)
  | Err _ => None
  end.

Lemma p_ok : source_ok p_cenv 102 p_prog.
Proof.
  split; [split|split; [|split; [reflexivity|reflexivity]]].
  - unfold p_prog, p_add. cbn. repeat (constructor; [cbn; intuition discriminate|]). constructor.
  - intros x F. apply exp_fv_spec in F. vm_compute in F. exact F.
  - intros t i. unfold p_cenv. cbn. repeat (destruct (Pos.eq_dec _ _) as [->|]; [intros _; reflexivity|]). discriminate.
Qed.

Fixpoint p_nat (n : nat) : val := match n with O => Vconstr 100 [] | S n => Vconstr 101 [p_nat n] end.

(** two plus one is three before and after, with all optimisations and with none;
    the optimised program is the first-order one *)
Example C74_example :
  source_ok p_cenv 102 p_prog /\
  (exists c, bstep_fuel p_cenv [] p_prog c (Res (p_nat 3))) /\
  option_map snd (p_out (p_opts true true true true true)) =
    Some (Efun (Fcons 101 6 [102; 103]
                  (Ecase 103
                    [(100, Ehalt 102);
                     (101, Eproj 104 101 0 103 (Eletapp 105 101 6 [102; 104] (Econstr 106 101 [105] (Ehalt 106))))]) Fnil)
           (Econstr 107 100 [] (Econstr 108 101 [107] (Econstr 109 101 [108] (Eletapp 110 101 6 [108; 109] (Ehalt 110)))))) /\
  forallb (fun o => match p_out o with
                    | Some (ce, e) => match interp ce 100 [] e with Done (Vconstr 101 [Vconstr 101 [Vconstr 101 [Vconstr 100 []]]]) _ => true | _ => false end
                    | None => false end)
    (flat_map (fun a => flat_map (fun b => flat_map (fun c => flat_map (fun d => [p_opts a b c d true; p_opts a b c d false])
       [true; false]) [true; false]) [true; false]) [true; false]) = true.
Proof.
  split; [exact p_ok|]. split; [exists 27%nat; apply interp_iff; exists 60%nat; vm_compute; reflexivity|].
  split; vm_compute; reflexivity.
Qed.

(** [15] is the tag of closures: the function [10] returned as such is a closure
    of the compiled program *)
Definition p_fun : exp := Efun p_add (Econstr 20 101 [10] (Ehalt 20)).
Example C74_example_closure :
  source_ok p_cenv 102 p_fun /\
  match fst (run_anf_pipeline passes 100 (p_opts true true true true true) (p_cenv, 102, 101, [], [(3, (1%N, [0%N]))], p_fun)) with
  | Ret (ce, _, _, _, _, e) =>
      match interp ce 100 [] e with Done (Vconstr 101 [Vconstr 15 [Vfun _ _ _; _]]) _ => True | _ => False end
  | Err _ => False
  end.
Proof.
  split; [|vm_compute; exact I]. destruct p_ok as (_ & T). split; [|exact T]. split.
  - unfold p_fun, p_add. cbn. repeat (constructor; [cbn; intuition discriminate|]). constructor.
  - intros x F. apply exp_fv_spec in F. vm_compute in F. exact F.
Qed.

Example C75_example : match p_out (p_opts true true true true true) with
  | Some (ce, e) => forallb (fun x => Pos.ltb 100 x) (bv e) = true /\ get 101 ce = get 101 p_cenv /\ get clo_tag ce <> None
  | None => False
  end.
Proof. vm_compute. repeat split. discriminate. Qed.

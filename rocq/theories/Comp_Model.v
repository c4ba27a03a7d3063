(** * The compilation state and the pipeline

    Source: theories/common/compM.v, theories/common/Pipeline_utils.v,
    theories/LambdaANF/state.v, theories/LambdaANF/toplevel.v,
    theories/LambdaANF/identifiers.v, theories/Compiler/pipeline.v.

    The passes themselves are arbitrary functions here; [timePhase] is the
    identity (theories/common/AstCommon.v:552). *)
From Coq Require Import ZArith NArith PArith List Lia Bool String.
From Verif Require Import ANF_Syntax.
Import ListNotations.

(** ** The monad *)

(** theories/common/compM.v:43-44 *)
Inductive error (A : Type) : Type :=
| Err : string -> error A
| Ret : A -> error A.
Arguments Err {_} _.
Arguments Ret {_} _.

(** theories/common/compM.v:87, 98: a computation reads [R], threads [W] and
    may raise an error *)
Definition compM (R W A : Type) := R -> W -> error A * W.

Section Monad.
  Context {R W : Type}.

  (** theories/common/compM.v:68, 90 *)
  Definition ret {A} (x : A) : compM R W A := fun r w => (Ret x, w).

  (** theories/common/compM.v:69-75, 91-94 *)
  Definition bind {A B} (m : compM R W A) (f : A -> compM R W B) : compM R W B :=
    fun r w =>
      let (a, w') := m r w in
      match a with
      | Err s => (Err s, w')
      | Ret a => f a r w'
      end.

  (** theories/common/compM.v:102 *)
  Definition getM : compM R W W := fun r w => (Ret w, w).

  (** theories/common/compM.v:104 *)
  Definition putM (w : W) : compM R W unit := fun r _ => (Ret tt, w).

  (** theories/common/compM.v:106-107 *)
  Definition failwith {A} (s : string) : compM R W A := fun r w => (Err s, w).

  (** theories/common/compM.v:109 *)
  Definition ask : compM R W R := fun r w => (Ret r, w).

  (** theories/common/compM.v:10-19 *)
  Fixpoint mapM {A B} (f : A -> compM R W B) (l : list A) : compM R W (list B) :=
    match l with
    | [] => ret []
    | x :: xs =>
        bind (f x) (fun x' =>
        bind (mapM f xs) (fun xs' =>
        ret (x' :: xs')))
    end.
End Monad.

(** ** The state of the passes on LambdaANF *)

(** Names of binders ([BasicAst.name] of MetaRocq) *)
Inductive name := nAnon | nNamed (s : string).

(** theories/LambdaANF/cps_util.v:24 *)
Definition name_env := tmap name.

(** theories/LambdaANF/cps.v:365-366: number of arguments and their positions *)
Definition fun_env := tmap (N * list N).

(** theories/LambdaANF/state.v:26-35 ([log] left out of the name clash) *)
Record comp_data :=
  mkCompData { next_var : var;
               nect_ctor_tag : ctor_tag;
               next_ind_tag : ind_tag;
               next_fun_tag : fun_tag;
               cenv : ctor_env;
               fenv : fun_env;
               nenv : name_env;
               inline_map : tmap nat;
               log : list string }.

(** theories/LambdaANF/cps_util.v:28-33 *)
Definition add_entry (nenv : name_env) (x x_origin : var) (suff : string) : name_env :=
  match get x_origin nenv with
  | Some (nNamed s) => set x (nNamed (s ++ suff)) nenv
  | Some nAnon => set x (nNamed ("anon" ++ suff)) nenv
  | None => set x (nNamed ("anon" ++ suff)) nenv
  end.

(** theories/LambdaANF/cps_util.v:35-36 *)
Definition add_entry_str (nenv : name_env) (x : var) (name : string) : name_env :=
  set x (nNamed name) nenv.

(** theories/LambdaANF/state.v:54-60 *)
Definition add_entry_from_map (nenv nenv_old : name_env) (x x_origin : var) (suff : string) : name_env :=
  match get x_origin nenv_old with
  | Some (nNamed s) => set x (nNamed (s ++ suff)) nenv
  | Some nAnon => set x (nNamed ("anon" ++ suff)) nenv
  | None => set x (nNamed ("anon" ++ suff)) nenv
  end.

(** theories/LambdaANF/List_util.v:19-23 *)
Fixpoint fromN (n : N) (m : nat) : list N :=
  match m with
  | O => []
  | S m' => n :: fromN (N.succ n) m'
  end.

Section State.
  (** the state a pass adds for itself *)
  Context {S : Type}.

  (** theories/LambdaANF/state.v:38 *)
  Definition compM' := compM unit (comp_data * S).

  (** theories/LambdaANF/state.v:46-51 *)
  Definition get_name (old_var : var) (suff : string) : compM' var :=
    bind getM (fun p =>
    let '(mkCompData n c i f e fenv names imap log, st) := p in
    let names' := add_entry names n old_var suff in
    bind (putM (mkCompData (n + 1)%positive c i f e fenv names' imap log, st)) (fun _ =>
    ret n)).

  (** theories/LambdaANF/state.v:67-72 *)
  Definition get_name' (old_var : var) (suff : string) (nenv_old : name_env) : compM' var :=
    bind getM (fun p =>
    let '(mkCompData n c i f e fenv nenv imap log, st) := p in
    let nenv' := add_entry_from_map nenv nenv_old n old_var suff in
    bind (putM (mkCompData (n + 1)%positive c i f e fenv nenv' imap log, st)) (fun _ =>
    ret n)).

  (** theories/LambdaANF/state.v:75-76 *)
  Definition get_names_lst (old : list var) (suff : string) : compM' (list var) :=
    mapM (fun o => get_name o suff) old.

  (** theories/LambdaANF/state.v:78-79 *)
  Definition get_names_lst' (old : list var) (suff : string) (nenv_old : name_env) : compM' (list var) :=
    mapM (fun o => get_name' o suff nenv_old) old.

  (** theories/LambdaANF/state.v:83-88 *)
  Definition get_named (s : name) : compM' var :=
    bind getM (fun p =>
    let '(mkCompData n c i f e fenv names imap log, st) := p in
    let names' := set n s names in
    bind (putM (mkCompData (n + 1)%positive c i f e fenv names' imap log, st)) (fun _ =>
    ret n)).

  (** theories/LambdaANF/state.v:90 *)
  Definition get_named_lst (s : list name) : compM' (list var) := mapM get_named s.

  (** theories/LambdaANF/state.v:94-99 *)
  Definition get_named_str (name : string) : compM' var :=
    bind getM (fun p =>
    let '(mkCompData n c i f e fenv names imap log, st) := p in
    let names' := add_entry_str names n name in
    bind (putM (mkCompData (n + 1)%positive c i f e fenv names' imap log, st)) (fun _ =>
    ret n)).

  (** theories/LambdaANF/state.v:102-113; the two printed names of the
      constructor are left out *)
  Definition make_record_ctor_tag (n : N) : compM' ctor_tag :=
    bind getM (fun p =>
    let '(mkCompData x c i f cenv fenv names imap log, st) := p in
    let inf := {| ctor_ind_tag := i; ctor_arity := n; ctor_ordinal := 0%N |} in
    let cenv' := set c inf cenv in
    bind (putM (mkCompData x (c + 1)%positive (i + 1)%positive f cenv' fenv names imap log, st)) (fun _ =>
    ret c)).

  (** theories/LambdaANF/state.v:116-126; the pattern rebinds [c] and [i] *)
  Definition register_record_ctor_tag (c : ctor_tag) (i : ind_tag) (n : N) : compM' unit :=
    bind getM (fun p =>
    let '(mkCompData x c i f e fenv names imap log, st) := p in
    let inf := {| ctor_ind_tag := i; ctor_arity := n; ctor_ordinal := 0%N |} in
    let e' := set c inf e in
    putM (mkCompData x c i f e' fenv names imap log, st)).

  (** theories/LambdaANF/state.v:136-138 *)
  Definition add_log (msg : string) (c : comp_data) : comp_data :=
    let '(mkCompData x c i f e fenv names imap log) := c in
    mkCompData x c i f e fenv names imap (msg :: log).

  (** theories/LambdaANF/state.v:141-144 *)
  Definition log_msg (msg : string) : compM' unit :=
    bind getM (fun s => let '(c, st) := s in putM (add_log msg c, st)).

  (** theories/LambdaANF/state.v:147-149 *)
  Definition get_state (_ : unit) : compM' S := bind getM (fun s => ret (snd s)).

  (** theories/LambdaANF/state.v:152-154 *)
  Definition put_state (st : S) : compM' unit :=
    bind getM (fun s => putM (fst s, st)).

  (** theories/LambdaANF/state.v:164-168 *)
  Definition get_ftag (arity : N) : compM' fun_tag :=
    bind getM (fun p =>
    let '(mkCompData x c i f e fenv names imap log, st) := p in
    bind (putM (mkCompData x c i (f + 1)%positive e (set f (arity, fromN 0%N (N.to_nat arity)) fenv) names imap log, st)) (fun _ =>
    ret f)).

  (** theories/LambdaANF/state.v:170-171 *)
  Definition run_compM {A} (m : compM' A) (st : comp_data) (s : S) : error A * (comp_data * S) :=
    m tt (st, s).
End State.

(** theories/LambdaANF/state.v:156-158 *)
Definition make_ftag (arity : nat) (c : comp_data) : fun_tag * comp_data :=
  let 'mkCompData x c i f e fenv names imap log := c in
  (f, mkCompData x c i (f + 1)%positive e (set f (N.of_nat arity, fromN 0%N arity) fenv) names imap log).

(** ** The first free name *)

(** theories/LambdaANF/List_util.v:577-581 *)
Fixpoint max_list (ls : list var) (acc : positive) : positive :=
  match ls with
  | [] => acc
  | x :: xs => max_list xs (Pos.max x acc)
  end.

(** theories/LambdaANF/identifiers.v:2936-2962 *)
Fixpoint max_var (e : exp) (z : positive) : positive :=
  match e with
  | Econstr x _ ys e => max_var e (max_list (x :: ys) z)
  | Ecase x P =>
      (fix aux (P : list (ctor_tag * exp)) (z : positive) : positive :=
         match P with
         | (_, e) :: P => aux P (max_var e z)
         | [] => Pos.max z x
         end) P z
  | Eproj x _ _ y e => max_var e (max_list (x :: y :: nil) z)
  | Eletapp x f _ ys e => max_var e (max_list (x :: f :: ys) z)
  | Efun defs e =>
      let z' := max_var_fundefs defs z in
      max_var e z'
  | Eapp f _ xs => max_list (f :: xs) z
  | Eprim_val x _ e => max_var e (max_list (x :: nil) z)
  | Eprim x _ ys e => max_var e (max_list (x :: ys) z)
  | Ehalt x => Pos.max z x
  end
with max_var_fundefs (defs : fundefs) (z : positive) : positive :=
  match defs with
  | Fcons f _ ys e defs =>
      let z' := max_var e z in
      max_var_fundefs defs (max_list (f :: ys) z')
  | Fnil => z
  end.

(** ** The pipeline on LambdaANF *)

(** theories/LambdaANF/toplevel.v:126-137 *)
Record anf_options :=
  { o_time : bool;
    o_cps : bool;
    do_lambda_lift : bool;
    o_args : nat;
    no_push : nat;
    inl_wrappers : bool;
    inl_known : bool;
    inl_before : bool;
    inl_after : bool;
    o_dpe : bool }.

(** theories/LambdaANF/toplevel.v:140 *)
Definition anf_state (A : Type) := comp_data -> error A * comp_data.

(** theories/LambdaANF/toplevel.v:143 *)
Definition anf_trans : Type := exp -> anf_state exp.

(** theories/LambdaANF/toplevel.v:146-155 *)
Definition aret {A} (x : A) : anf_state A := fun c_data => (Ret x, c_data).
Definition abind {A B} (m : anf_state A) (f : A -> anf_state B) : anf_state B :=
  fun c_data =>
    let (a_err, c_data') := m c_data in
    match a_err with
    | Ret a => f a c_data'
    | Err s => (Err s, c_data')
    end.

(** theories/LambdaANF/toplevel.v:158 *)
Definition id_trans : anf_trans := fun e c => (Ret e, c).

(** The passes called by the pipeline, with the arguments they are given
    (theories/LambdaANF/toplevel.v:171-196) *)
Record anf_passes :=
  { shrink_err : anf_trans;
    uncurry_top : bool -> anf_trans;
    inline_uncurry : var -> nat -> nat -> anf_trans;
    inline_shrink_loop : var -> nat -> nat -> anf_trans;
    lambda_lift : nat -> nat -> bool -> anf_trans;
    closure_conversion_hoist : ctor_tag -> ind_tag -> anf_trans;
    DPE : anf_trans;
    inline_lifted : var -> nat -> nat -> anf_trans }.

(** theories/LambdaANF/toplevel.v:46-52 *)
Definition clo_tag := 15%positive.
Definition clo_ind_tag := 16%positive.

Section AnfPipeline.
  Variable P : anf_passes.
  Variable next_var_ : positive.
  Variable anf_opts : anf_options.

  (** theories/common/AstCommon.v:552 *)
  Definition timePhase {A B} (s : string) (f : A -> B) (a : A) : B := f a.

  (** theories/LambdaANF/toplevel.v:164-165 *)
  Definition time_anf {A B} (name : string) (f : A -> anf_state B) : A -> anf_state B :=
    fun x s => if o_time anf_opts then timePhase name (f x) s else f x s.

  (** theories/LambdaANF/toplevel.v:169-197 *)
  Definition anf_pipeline (e : exp) : anf_state exp :=
    abind (time_anf "Shrink" (shrink_err P) e) (fun e =>
    abind (time_anf "Uncurry" (uncurry_top P (o_cps anf_opts)) e) (fun e =>
    abind (time_anf "Inline uncurry wrappers" (inline_uncurry P next_var_ 10 100) e) (fun e =>
    abind (if inl_before anf_opts then
             time_anf "Inline/shrink loop" (inline_shrink_loop P next_var_ 10 100) e
           else id_trans e) (fun e =>
    abind (if do_lambda_lift anf_opts then
             time_anf "Lambda lift"
               (lambda_lift P (o_args anf_opts) (no_push anf_opts) (inl_wrappers anf_opts)) e
           else id_trans e) (fun e =>
    abind (time_anf "Shrink" (shrink_err P) e) (fun e =>
    abind (time_anf "Closure conversion and hoisting"
             (closure_conversion_hoist P clo_tag clo_ind_tag) e) (fun e =>
    abind (time_anf "Shrink" (shrink_err P) e) (fun e =>
    abind (if inl_after anf_opts then
             time_anf "Inline/shrink loop" (inline_shrink_loop P next_var_ 10 100) e
           else id_trans e) (fun e =>
    abind (if o_dpe anf_opts then time_anf "Dead param elim" (DPE P) e
           else id_trans e) (fun e =>
    abind (time_anf "Shrink" (shrink_err P) e) (fun e =>
    abind (if inl_known anf_opts then
             time_anf "Inline known functions inside wrappers" (inline_lifted P next_var_ 10 1000) e
           else id_trans e) (fun e =>
    aret e)))))))))))).

  (** theories/LambdaANF/toplevel.v:204-208: the state the pipeline starts from *)
  Definition initial_data (cenv : ctor_env) (ctag : ctor_tag) (itag : ind_tag)
             (nenv : name_env) (fenv : fun_env) (e0 : exp) : comp_data :=
    mkCompData (max_var e0 1 + 1)%positive ctag itag
      (fold_left (fun cm p => Pos.max cm (fst p)) fenv 1 + 1)%positive
      cenv fenv nenv [] [].

  (** theories/LambdaANF/toplevel.v:15-17: the term with its environments;
      the primitives and the empty environment, passed through, are left out *)
  Definition full_term : Type := ctor_env * ctor_tag * ind_tag * name_env * fun_env * exp.

  Definition newline : string := String (Ascii.ascii_of_nat 10) EmptyString.

  (** theories/common/Pipeline_utils.v:96-97 *)
  Definition log_to_string (log : list string) : string :=
    String.concat newline ("Debug messages"%string :: List.rev log).

  (** theories/LambdaANF/toplevel.v:200-217 *)
  Definition run_anf_pipeline (t : full_term) : error full_term * string :=
    let '(cenv, ctag, itag, nenv, fenv, e0) := t in
    let c_data := initial_data cenv ctag itag nenv fenv e0 in
    let (res, c_data') := anf_pipeline e0 c_data in
    match res with
    | Err s => (Err ("Failed compiling LambdaANF program: " ++ s), ""%string)
    | Ret e =>
        let (_, ctag, itag, ftag, cenv, fenv, nenv, _, log) := c_data' in
        (Ret (cenv, ctag, itag, nenv, fenv, e), log_to_string log)
    end.
End AnfPipeline.

(** ** The whole pipeline *)

(** theories/common/Pipeline_utils.v:20-24; kernel names are strings here *)
Record primitive := mk_primitive {
  prim_name : string;
  prim_target : string;
  prim_arity : nat;
  prim_alloc : bool }.

(** theories/common/Pipeline_utils.v:29-48, the fields that the pipeline looks at *)
Record Options :=
  { direct : bool; c_args : nat; anf_conf : nat; o_level : nat; time : bool;
    debug : bool; prims : list primitive }.

(** theories/common/Pipeline_utils.v:52-56 *)
Record CompInfo := Build_CompInfo
  { time_log : list string; ci_log : list string; debug_log : list string }.

(** theories/common/Pipeline_utils.v:58 *)
Definition pipelineM := compM Options CompInfo.

(** theories/common/Pipeline_utils.v:68 *)
Definition CertiRocqTrans Src Dst := Src -> pipelineM Dst.

(** theories/common/Pipeline_utils.v:74 *)
Definition get_options : pipelineM Options := ask.

(** theories/common/Pipeline_utils.v:84-89 *)
Definition debug_msg (s : string) : pipelineM unit :=
  bind get_options (fun o =>
  if debug o then
    bind getM (fun ci => let '(Build_CompInfo tm log dbg) := ci in
    putM (Build_CompInfo tm log (s :: dbg)))
  else ret tt).

(** theories/common/Pipeline_utils.v:108-111 *)
Definition timePhase_opt {A} (o : Options) (s : string) (f : unit -> A) : A :=
  if time o then timePhase s f tt else f tt.

(** theories/common/Pipeline_utils.v:118-123 *)
Definition LiftCertiRocqTrans {Src Trg} (name : string) (f : Src -> Trg) : CertiRocqTrans Src Trg :=
  fun s => bind get_options (fun o => ret (timePhase_opt o name (fun _ => f s))).

(** theories/common/Pipeline_utils.v:125-128 *)
Definition LiftErrorCertiRocqTrans {Src Trg} (name : string) (f : Src -> error Trg) : CertiRocqTrans Src Trg :=
  fun s => fun o inf => timePhase_opt o name (fun _ => (f s, inf)).

(** theories/common/Pipeline_utils.v:130-139 *)
Definition LiftErrorLogCertiRocqTrans {Src Trg} (name : string) (f : Src -> error Trg * string) : CertiRocqTrans Src Trg :=
  fun s => fun o inf =>
    timePhase_opt o name (fun _ =>
      let (res, dbg) := f s in
      let inf' := Build_CompInfo (time_log inf) (ci_log inf) (dbg :: debug_log inf) in
      (res, inf')).

(** theories/common/Pipeline_utils.v:99-102 *)
Definition run_pipeline {Src Dst} (o : Options) (src : Src) (m : CertiRocqTrans Src Dst) : error Dst * string :=
  let w := Build_CompInfo [] [] [] in
  let '(res, c_info) := m src o w in
  (res, log_to_string (debug_log c_info)).

(** theories/LambdaANF/toplevel.v:240-272 *)
Definition make_anf_options (opts : Options) : anf_options :=
  let '(inl_wrappers, inl_known, no_push, inl_before, inl_after) :=
    let default := (true, false, 1, true, true) in
    match anf_conf opts with
    | 0 => default
    | 1 => (false, false, 1, true, true)
    | 2 => (true, true, 1, true, true)
    | 3 => (true, false, 0, true, true)
    | 4 => (true, false, 2, true, true)
    | 5 => (true, false, 10, true, true)
    | 6 => (true, false, 1, false, true)
    | 7 => (true, false, 1, true, false)
    | 8 => (true, false, 1, false, false)
    | 9 => (true, false, 1000, true, true)
    | _ => default
    end in
  {| o_time := time opts;
     o_cps := negb (direct opts);
     do_lambda_lift := (1 <=? o_level opts)%nat;
     o_args := if (anf_conf opts =? 9)%nat then 1000 else c_args opts;
     no_push := no_push;
     inl_wrappers := inl_wrappers;
     inl_known := inl_known;
     inl_before := inl_before;
     inl_after := inl_after;
     o_dpe := true |}.

(** theories/Compiler/pipeline.v:29-38 *)
Fixpoint pick_prim_ident (id : positive) (prs : list primitive) : list (primitive * positive) * positive :=
  match prs with
  | [] => ([], id)
  | pr :: prs =>
      let next_id := (id + 1)%positive in
      let (prs', id') := pick_prim_ident next_id prs in
      ((pr, id) :: prs', id')
  end.

(** theories/Compiler/pipeline.v:40-42 *)
Definition register_prims (id : positive) : pipelineM (list (primitive * positive) * positive) :=
  bind get_options (fun o => ret (pick_prim_ident id (prims o))).

(** theories/common/AstCommon.v:154-156; the packet of inductive types is a
    list of anything *)
Inductive envClass (T : Type) : Type :=
| ecTrm (_ : T)
| ecTyp (_ : nat) (_ : list nat).
Arguments ecTrm {T} _.
Arguments ecTyp {T} _ _.

(** theories/common/AstCommon.v:174 *)
Definition environ (T : Type) := list (string * envClass T).

(** theories/common/AstCommon.v (record [Program]) *)
Record Program (T : Type) := { main : T; env_of : environ T }.
Arguments main {T} _.
Arguments env_of {T} _.

(** theories/Compiler/pipeline.v:52-63 *)
Fixpoint find_axioms {T} (prims : list (primitive * positive)) (acc : list string) (env : environ T) : list string :=
  match env with
  | [] => acc
  | (kn, d) :: decls =>
      match d with
      | ecTrm _ => find_axioms prims acc decls
      | ecTyp 0 [] =>
          match List.find (fun prim : primitive * positive => String.eqb kn (prim_name (fst prim))) prims with
          | Some _ => find_axioms prims acc decls
          | None => find_axioms prims (kn :: acc) decls
          end
      | ecTyp _ _ => find_axioms prims acc decls
      end
  end.

(** [print_list] of MetaRocq.Utils.MRString *)
Fixpoint print_list (sep : string) (l : list string) : string :=
  match l with
  | [] => ""
  | [x] => x
  | x :: xs => x ++ sep ++ print_list sep xs
  end.

(** theories/Compiler/pipeline.v:65-70 *)
Definition check_axioms {T} (prims : list (primitive * positive)) (p : Program T) : pipelineM unit :=
  match find_axioms prims [] (env_of p) with
  | [] => ret tt
  | l => failwith ("Axioms found, use Extract Constant to realize them in C: " ++ newline ++ print_list ", " l)
  end.

(** What the pipeline calls outside this file: the four front-end
    translations (erasure and [compile_program]; [translate_program];
    [convert_top_anf], [convert_top]), the passes on LambdaANF and the code
    generator (Clight or Wasm), each as a function. *)
Record front := {
  src_program : Type;
  mut_term : Type;
  local_term : Type;
  target : Type;
  compile_program : src_program -> Program mut_term;
  translate_program : list (primitive * positive) -> Program mut_term -> local_term;
  convert_top_anf : list (primitive * positive) -> positive -> local_term -> error full_term;
  convert_top : list (primitive * positive) -> positive -> local_term -> error full_term;
  passes : anf_passes;
  codegen_cps : list (primitive * positive) -> nat -> full_term -> error target;
  codegen : list (primitive * positive) -> nat -> full_term -> error target * string }.

Section Pipeline.
  Variable F : front.

  (** theories/LambdaBoxMut/toplevel.v:31-35 *)
  Definition compile_LambdaBoxMut : CertiRocqTrans (src_program F) (Program (mut_term F)) :=
    fun src =>
      bind (debug_msg "Translating from L1g to L1k") (fun _ =>
      LiftCertiRocqTrans "LambdaBoxMut" (compile_program F) src).

  (** theories/LambdaBoxLocal/toplevel.v:22-28 *)
  Definition compile_LambdaBoxLocal prs : CertiRocqTrans (Program (mut_term F)) (local_term F) :=
    fun src =>
      bind (debug_msg "Translating from LambdaBoxMut to LambdaBoxLocal") (fun _ =>
      LiftCertiRocqTrans "LambdaBoxLocal" (translate_program F prs) src).

  (** theories/LambdaANF/toplevel.v:58-69 *)
  Definition compile_LambdaANF_CPS (nv : positive) prs : CertiRocqTrans (local_term F) full_term :=
    fun src =>
      bind (debug_msg "Translating from LambdaBoxLocal to LambdaANF (CPS)") (fun _ =>
      LiftErrorCertiRocqTrans "LambdaANF CPS" (convert_top F prs nv) src).

  (** theories/LambdaANF/toplevel.v:71-82 *)
  Definition compile_LambdaANF_ANF (nv : positive) prs : CertiRocqTrans (local_term F) full_term :=
    fun src =>
      bind (debug_msg "Translating from LambdaBoxLocal to LambdaANF (ANF)") (fun _ =>
      LiftErrorCertiRocqTrans "LambdaANF ANF" (convert_top_anf F prs nv) src).

  (** theories/LambdaANF/toplevel.v:275-281 ([compile_LambdaANF_debug] is the same) *)
  Definition compile_LambdaANF (nv : positive) : CertiRocqTrans full_term full_term :=
    fun src =>
      bind (debug_msg "Compiling LambdaANF") (fun _ =>
      bind get_options (fun opts =>
      LiftErrorLogCertiRocqTrans "LambdaANF Pipeline"
        (run_anf_pipeline (passes F) nv (make_anf_options opts)) src)).

  (** theories/Compiler/pipeline.v:72-79 *)
  Definition CertiRocq_pipeline (next_id : positive) prs (p : src_program F) : pipelineM full_term :=
    bind get_options (fun o =>
    bind (compile_LambdaBoxMut p) (fun p =>
    bind (check_axioms prs p) (fun _ =>
    bind (compile_LambdaBoxLocal prs p) (fun p =>
    bind (if direct o then compile_LambdaANF_ANF next_id prs p
          else compile_LambdaANF_CPS next_id prs p) (fun p =>
    compile_LambdaANF next_id p))))).

  (** theories/Codegen/toplevel.v:88-98; for Wasm (theories/CodegenWasm/toplevel.v:32-37)
      the second generator is used in both cases *)
  Definition compile_target prs : CertiRocqTrans full_term (target F) :=
    fun s =>
      bind (debug_msg "Translating from LambdaANF to C") (fun _ =>
      bind get_options (fun opts =>
      let args := c_args opts in
      let cps := negb (direct opts) in
      if cps then LiftErrorCertiRocqTrans "Codegen" (codegen_cps F prs args) s
      else LiftErrorLogCertiRocqTrans "Codegen" (codegen F prs args) s)).

  (** theories/Compiler/pipeline.v:84 *)
  Definition next_id := 100%positive.

  (** theories/Compiler/pipeline.v:88-93 *)
  Definition pipeline (p : src_program F) : pipelineM (target F) :=
    bind (register_prims next_id) (fun '(prs, next_id) =>
    bind (CertiRocq_pipeline next_id prs p) (fun p =>
    compile_target prs p)).

  (** theories/Compiler/pipeline.v:158-159 *)
  Definition compile (opts : Options) (p : src_program F) : error (target F) * string :=
    run_pipeline opts p pipeline.
End Pipeline.

(* A-normalisation: theories/LambdaANF/LambdaBoxLocal_to_LambdaANF.v.

   Simplifications: the compilation state is its next fresh variable (the names
   recorded for printing, the tables and the log play no role here); the
   exception monad is [option]; a registered primitive is represented by its
   arity. *)
From Coq Require Import List Arith NArith PArith String Bool.
From Verif Require Import ANF_Syntax ANF_Subst LB_Model.
Import ListNotations.

(* :28 conId_map. *)
Definition conId_map := list (dcon * ctor_tag).

(* theories/LambdaANF/ctx.v:126-145 comp_ctx_f. *)
Fixpoint comp_ctx_f (c1 c2 : exp_ctx) : exp_ctx :=
  match c1 with
  | Hole_c => c2
  | Econstr_c x t ys c => Econstr_c x t ys (comp_ctx_f c c2)
  | Eproj_c x t n y c => Eproj_c x t n y (comp_ctx_f c c2)
  | Ecase_c x te t c te' => Ecase_c x te t (comp_ctx_f c c2) te'
  | Eletapp_c x f ft ys c => Eletapp_c x f ft ys (comp_ctx_f c c2)
  | Eprim_val_c x p c => Eprim_val_c x p (comp_ctx_f c c2)
  | Eprim_c x f ys c => Eprim_c x f ys (comp_ctx_f c c2)
  | Efun1_c fds c => Efun1_c fds (comp_ctx_f c c2)
  | Efun2_c cfds e' => Efun2_c (comp_f_ctx_f cfds c2) e'
  end
with comp_f_ctx_f (c : fundefs_ctx) (c2 : exp_ctx) : fundefs_ctx :=
  match c with
  | Fcons1_c f t ys c fds => Fcons1_c f t ys (comp_ctx_f c c2) fds
  | Fcons2_c f t ys e' cfds => Fcons2_c f t ys e' (comp_f_ctx_f cfds c2)
  end.

(* :607-625 var_map, get_var_name, add_var_name, new_var_map: the map grows from
   1 onward; index [x] is looked up at [p - x]. *)
Definition var_map : Type := tmap var * N.
Definition get_var_name (vmp : var_map) (x : N) : option var :=
  let (vm, p) := vmp in
  match (p - x)%N with
  | N0 => None
  | Npos pos => get pos vm
  end.
Definition add_var_name (vmp : var_map) (x' : var) : var_map :=
  let (vm, p) := vmp in
  let p' := N.succ_pos p in
  (set p' x' vm, Npos p').
Definition new_var_map : var_map := ([], 0%N).

(* :85-94 ctx_bind_proj. *)
Fixpoint ctx_bind_proj (tg : ctor_tag) (r : var) (vars : list var) (args : nat) : exp_ctx :=
  match vars with
  | [] => Hole_c
  | v :: vars => Eproj_c v tg (N.of_nat (args - 1)) r (ctx_bind_proj tg r vars (args - 1))
  end.

(* theories/LambdaANF/state.v:82-98 get_named, get_named_lst, get_named_str: all
   take the next variable. *)
Definition fresh (s : positive) : var * positive := (s, (s + 1)%positive).
Fixpoint fresh_list (n : nat) (s : positive) : list var * positive :=
  match n with
  | 0 => ([], s)
  | S n => let (x, s) := fresh s in let (xs, s) := fresh_list n s in (x :: xs, s)
  end.

Notation "'do' X <- A ; B" := (match A with Some X => B | None => None end)
  (at level 200, X pattern, A at level 100, B at level 200).

(* :653-662 add_fix_names. *)
Fixpoint add_fix_names (B : efnlst) (vm : var_map) (s : positive) : list var * var_map * positive :=
  match B with
  | eflnil => ([], vm, s)
  | eflcons _ _ B' =>
    let (f_name, s) := fresh s in
    let '(fs, vm', s) := add_fix_names B' (add_var_name vm f_name) s in
    (f_name :: fs, vm', s)
  end.

Section Convert.
  (* :21-23 section parameters; [prims] maps primitives to arities. *)
  Variable prims : tmap nat.
  Variables func_tag default_tag : positive.

  (* :41-49, 69-70 dcon_to_info, dcon_to_tag. *)
  Fixpoint dcon_to_tag (a : dcon) (sig : conId_map) : ctor_tag :=
    match sig with
    | [] => default_tag
    | (cId, inf) :: sig' => if dcon_eqb a cId then inf else dcon_to_tag a sig'
    end.

  Variable tgm : conId_map.

  (* :664-676 convert_prim_anf. *)
  Fixpoint convert_prim_anf (n : nat) (p : positive) (args : list var) (s : positive)
    : var * exp_ctx * positive :=
    match n with
    | 0 => let (x, s) := fresh s in (x, Eprim_c x p (rev args) Hole_c, s)
    | S n =>
      let (arg, s) := fresh s in
      let (f, s) := fresh s in
      let '(x, C, s) := convert_prim_anf n p (arg :: args) s in
      (f, Efun1_c (Fcons f func_tag [arg] (app_ctx_f C (Ehalt x)) Fnil) Hole_c, s)
    end.

  (* :679-765 convert_anf, convert_anf_exps, convert_anf_efnlst,
     convert_anf_branches; [proj_ctx] (:643-651) is inlined in the last. *)
  Fixpoint convert_anf (e : lexp) (vm : var_map) (s : positive)
    : option (var * exp_ctx * positive) :=
    match e with
    | Var_e x =>
      match get_var_name vm x with
      | Some v => Some (v, Hole_c, s)
      | None => None
      end
    | App_e e1 e2 =>
      do (x1, C1, s) <- convert_anf e1 vm s ;
      do (x2, C2, s) <- convert_anf e2 vm s ;
      let (r, s) := fresh s in
      Some (r, comp_ctx_f C1 (comp_ctx_f C2 (Eletapp_c r x1 func_tag [x2] Hole_c)), s)
    | Lam_e _ e1 =>
      let (x, s) := fresh s in
      let (f, s) := fresh s in
      do (r, C, s) <- convert_anf e1 (add_var_name vm x) s ;
      Some (f, Efun1_c (Fcons f func_tag [x] (app_ctx_f C (Ehalt r)) Fnil) Hole_c, s)
    | Let_e _ e1 e2 =>
      do (x, C1, s) <- convert_anf e1 vm s ;
      do (r, C2, s) <- convert_anf e2 (add_var_name vm x) s ;
      Some (r, comp_ctx_f C1 C2, s)
    | Con_e dci es =>
      let (x, s) := fresh s in
      do (ys, C, s) <- convert_anf_exps es vm s ;
      Some (x, comp_ctx_f C (Econstr_c x (dcon_to_tag dci tgm) ys Hole_c), s)
    | Fix_e fnlst i =>
      let '(names, vm', s) := add_fix_names fnlst vm s in
      do (x, defs, s) <- convert_anf_efnlst fnlst names i vm' s ;
      Some (x, Efun1_c defs Hole_c, s)
    | Match_e e1 n bl =>
      let (f, s) := fresh s in
      let (y, s) := fresh s in
      do (x1, C1, s) <- convert_anf e1 vm s ;
      do (pats, s) <- convert_anf_branches bl y vm s ;
      let (r, s) := fresh s in
      Some (r, Efun1_c (Fcons f func_tag [y] (Ecase y pats) Fnil)
                 (comp_ctx_f C1 (Eletapp_c r f func_tag [x1] Hole_c)), s)
    | Prf_e =>
      let (x, s) := fresh s in Some (x, Econstr_c x default_tag [] Hole_c, s)
    | Prim_val_e p =>
      let (x, s) := fresh s in Some (x, Eprim_val_c x p Hole_c, s)
    | Prim_e p =>
      match get p prims with
      | Some n => Some (convert_prim_anf n p [] s)
      | None => None
      end
    end
  with convert_anf_exps (es : exps) (vm : var_map) (s : positive)
    : option (list var * exp_ctx * positive) :=
    match es with
    | enil => Some ([], Hole_c, s)
    | econs e es' =>
      do (y, C1, s) <- convert_anf e vm s ;
      do (ys, C2, s) <- convert_anf_exps es' vm s ;
      Some (y :: ys, comp_ctx_f C1 C2, s)
    end
  with convert_anf_efnlst (fdefs : efnlst) (names : list var) (i : N) (vm : var_map) (s : positive)
    : option (var * fundefs * positive) :=
    match fdefs, names with
    | eflnil, [] => Some (1%positive, Fnil, s)
    | eflcons _ e fdefs', f_name :: names =>
      match e with
      | Lam_e _ e1 =>
        let (x, s) := fresh s in
        do (r, C, s) <- convert_anf e1 (add_var_name vm x) s ;
        do (fi, defs', s) <- convert_anf_efnlst fdefs' names (i - 1)%N vm s ;
        let fi' := match i with 0%N => f_name | Npos _ => fi end in
        Some (fi', Fcons f_name func_tag [x] (app_ctx_f C (Ehalt r)) defs', s)
      | _ => None
      end
    | _, _ => None
    end
  with convert_anf_branches (bl : branches_e) (scrut : var) (vm : var_map) (s : positive)
    : option (list (ctor_tag * exp) * positive) :=
    match bl with
    | brnil_e => Some ([], s)
    | brcons_e dc n e bl' =>
      let ctag := dcon_to_tag dc tgm in
      do (pats', s) <- convert_anf_branches bl' scrut vm s ;
      let (vars, s) := fresh_list (N.to_nat (nargs n)) s in
      let Cproj := ctx_bind_proj ctag scrut vars (List.length vars) in
      let vm' := fold_right (fun v vm' => add_var_name vm' v) vm vars in
      do (r, C, s) <- convert_anf e vm' s ;
      Some ((ctag, app_ctx_f Cproj (app_ctx_f C (Ehalt r))) :: pats', s)
    end.

  (* :770-773 convert_anf_exp, run from the given next variable as in
     convert_top_anf (:777-785). *)
  Definition convert_anf_exp (next_id : positive) (e : lexp) : option (exp * positive) :=
    do (x, C, s) <- convert_anf e new_var_map next_id ;
    Some (app_ctx_f C (Ehalt x), s).
End Convert.

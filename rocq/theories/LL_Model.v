(** * Lambda lifting

    Source: theories/LambdaANF/lambda_lifting.v:87-517 (the part that is run:
    the relational definition after it only serves the proofs there).

    Simplified: of the compilation state only the fields the pass uses are kept
    (next variable, next function tag, function table); printed names and the
    texts of the two internal errors are left out, an internal error is [None];
    sets are lists (see ANF_Syntax), [PS.elements] is the sorted list; the
    parameters [active_funs] and [fv_no], which are passed around but never
    read, are left out. *)
From Coq Require Import List Arith NArith PArith Bool.
From Verif Require Import ANF_Syntax Comp_Model CC_Model UC_Model.
Import ListNotations.

(** theories/LambdaANF/state.v:25-34, the fields used *)
Record lst := mkl { lv_var : var; lv_tag : fun_tag; lv_tbl : fun_env }.

(** theories/LambdaANF/state.v:45-51 [get_name] *)
Definition new_name (s : lst) : var * lst :=
  (lv_var s, mkl (lv_var s + 1)%positive (lv_tag s) (lv_tbl s)).

(** theories/LambdaANF/state.v:75-76 [get_names_lst] *)
Fixpoint new_names (xs : list var) (s : lst) : list var * lst :=
  match xs with
  | [] => ([], s)
  | _ :: xs => let (y, s) := new_name s in let (ys, s) := new_names xs s in (y :: ys, s)
  end.

(** theories/LambdaANF/state.v:168-172 [get_ftag] *)
Definition new_tag (n : N) (s : lst) : fun_tag * lst :=
  (lv_tag s, mkl (lv_var s) (lv_tag s + 1)%positive (set (lv_tag s) (n, fromN 0 (N.to_nat n)) (lv_tbl s))).

(** lambda_lifting.v:97-105 *)
Inductive VarInfo : Type :=
| FreeVar : var -> VarInfo
| WrapperFun : var -> VarInfo.
Definition VarInfoMap := tmap VarInfo.

(** lambda_lifting.v:107-123; the two lists of a [Fun]: free variables (as list
    and as set) and lifted variables *)
Inductive FunInfo : Type :=
| Fun : var -> fun_tag -> list var -> list var -> list var -> FunInfo
| NoLiftFun : list var -> list var -> FunInfo.
Definition FunInfoMap := tmap FunInfo.

(** lambda_lifting.v:126-130 *)
Inductive GFunInfo : Type := GFun | LGFun.
Definition GFunMap := tmap GFunInfo.

(** lambda_lifting.v:134-156; [fvs] list, [sfvs] set, [args] lifted variables *)
Fixpoint add_functions (B : fundefs) (fvs sfvs args : list var) (m : FunInfoMap) (gfuns : GFunMap) (s : lst)
  : FunInfoMap * GFunMap * lst :=
  match B with
  | Fcons f ft xs _ B =>
      let '(m', gfuns', s) := add_functions B fvs sfvs args m gfuns s in
      let is_closed := match fvs with [] => true | _ => false end in
      let is_closed_lifted := Nat.eqb (length fvs) (length args) in
      let gfuns'' := if is_closed then set f GFun gfuns' else gfuns' in
      if is_closed_lifted then
        let (f', s) := new_name s in
        let (ft', s) := new_tag (N.of_nat (length xs)) s in
        (set f (Fun f' ft' fvs sfvs args) m', set f' LGFun gfuns'', s)
      else (set f (NoLiftFun fvs sfvs) m', gfuns'', s)
  | Fnil => (m, gfuns, s)
  end.

(** lambda_lifting.v:159-171 *)
Definition rename (map : VarInfoMap) (x : var) : var :=
  match get x map with
  | Some (FreeVar y) => y
  | Some (WrapperFun y) => y
  | None => x
  end.
Definition rename_lst (map : VarInfoMap) (xs : list var) : list var := List.map (rename map) xs.

(** lambda_lifting.v:173-182 *)
Fixpoint add_free_vars (fvs : list var) (m : VarInfoMap) (s : lst) : list var * VarInfoMap * lst :=
  match fvs with
  | [] => ([], m, s)
  | y :: ys =>
      let '(ys', m', s) := add_free_vars ys m s in
      let (y', s) := new_name s in
      (y' :: ys', set y (FreeVar y') m', s)
  end.

Local Notation "'do' X <- A ; B" := (match A with Some X => B | None => None end)
  (at level 200, X pattern, A at level 100, B at level 200).

(** lambda_lifting.v:187-208 *)
Fixpoint make_wrappers (B : fundefs) (fvm : VarInfoMap) (fm : FunInfoMap) (s : lst)
  : option (option fundefs * VarInfoMap * lst) :=
  match B with
  | Fcons f ft xs e B =>
      match get f fm with
      | Some (Fun f' ft' fvs sfvs args) =>
          let (g, s) := new_name s in
          let (xs', s) := new_names xs s in
          do (mb, fvm', s) <- make_wrappers B fvm fm s;
          let fvm'' := set f (WrapperFun g) fvm' in
          let Bw := match mb with Some Bw => Bw | None => Fnil end in
          Some (Some (Fcons g ft xs' (Eapp f' ft' (xs' ++ rename_lst fvm args)) Bw), fvm'', s)
      | Some (NoLiftFun _ _) => Some (None, fvm, s)
      | None => None
      end
  | Fnil => Some (Some Fnil, fvm, s)
  end.

(** lambda_lifting.v:210-216: the accumulator [p] is not returned *)
Fixpoint max_params_aux (B : fundefs) (p : nat) : nat :=
  match B with
  | Fcons _ _ xs _ B => max_params_aux B (Nat.max (length xs) p)
  | Fnil => 0
  end.
Definition fundefs_max_params (B : fundefs) : nat := max_params_aux B 0.

Section Lift.
  (** lambda_lifting.v:89-92 *)
  Variables max_args max_push : nat.
  Variable lift_dec : list var -> list var -> bool.

  Section TrueFV.
    Variable funmap : FunInfoMap.

    (** lambda_lifting.v:239-247, 252-260: the head of a call *)
    Definition call_fv (f : var) (scope fvset : list var) : list var :=
      match get f funmap with
      | Some (Fun f' ft' fvs sfvs lfvs) =>
          if lift_dec lfvs fvset then union_list fvset (f' :: lfvs)
          else if mem f scope then fvset else sadd f fvset
      | Some (NoLiftFun _ _) | None => if mem f scope then fvset else sadd f fvset
      end.

    (** lambda_lifting.v:235-282 *)
    Fixpoint exp_true_fv_aux (e : exp) (scope fvset : list var) : list var :=
      match e with
      | Econstr x c ys e =>
          let fvset' := add_list scope fvset ys in
          exp_true_fv_aux e (sadd x scope) fvset'
      | Ecase x pats =>
          let fvset' := fold_left (fun fvs p => exp_true_fv_aux (snd p) scope fvs) pats fvset in
          if mem x scope then fvset' else sadd x fvset'
      | Eproj x tau n y e =>
          let fvset' := if mem y scope then fvset else sadd y fvset in
          exp_true_fv_aux e (sadd x scope) fvset'
      | Eletapp x f ft ys e =>
          let fvset' := call_fv f scope fvset in
          let fvset'' := add_list scope fvset' ys in
          exp_true_fv_aux e (sadd x scope) fvset''
      | Efun defs e =>
          let '(scope', fvset') := fundefs_true_fv_aux defs scope fvset in
          exp_true_fv_aux e scope' fvset'
      | Eapp f ft xs =>
          let fvset' := call_fv f scope fvset in
          add_list scope fvset' xs
      | Eprim_val x p e => exp_true_fv_aux e (sadd x scope) fvset
      | Eprim x prim ys e =>
          let fvset' := add_list scope fvset ys in
          exp_true_fv_aux e (sadd x scope) fvset'
      | Ehalt x => if mem x scope then fvset else sadd x fvset
      end
    with fundefs_true_fv_aux (defs : fundefs) (scope fvset : list var) : list var * list var :=
      match defs with
      | Fcons f t ys e defs' =>
          let (scope', fvset') := fundefs_true_fv_aux defs' (sadd f scope) fvset in
          (scope', exp_true_fv_aux e (union_list scope' ys) fvset')
      | Fnil => (scope, fvset)
      end.

    (** lambda_lifting.v:288 *)
    Definition fundefs_true_fv (B : fundefs) : list var := snd (fundefs_true_fv_aux B [] []).
  End TrueFV.

  (** lambda_lifting.v:307-341: [occurs_in_exp] with the current functions *)
  Fixpoint occurs (k : var) (curr_f : list var) (e : exp) : bool :=
    match e with
    | Econstr z _ xs e1 => Pos.eqb z k || occurs_in_vars k xs || occurs k curr_f e1
    | Ecase x arms =>
        Pos.eqb k x ||
        (fix go (arms : list (ctor_tag * exp)) : bool :=
           match arms with
           | [] => false
           | (_, e) :: arms1 => occurs k curr_f e || go arms1
           end) arms
    | Eproj z _ _ x e1 => Pos.eqb z k || Pos.eqb k x || occurs k curr_f e1
    | Eletapp z f _ xs e1 => Pos.eqb z k || Pos.eqb f k || mem f curr_f || occurs_in_vars k xs || occurs k curr_f e1
    | Efun fds e => occurs_fundefs k curr_f fds || occurs k curr_f e
    | Eapp x _ xs => Pos.eqb k x || mem x curr_f || occurs_in_vars k xs
    | Eprim_val z _ e1 => Pos.eqb z k || occurs k curr_f e1
    | Eprim z _ xs e1 => Pos.eqb z k || occurs_in_vars k xs || occurs k curr_f e1
    | Ehalt x => Pos.eqb x k
    end
  with occurs_fundefs (k : var) (curr_f : list var) (fds : fundefs) : bool :=
    match fds with
    | Fnil => false
    | Fcons z _ zs e fds1 => Pos.eqb z k || occurs_in_vars k zs || occurs k curr_f e || occurs_fundefs k curr_f fds1
    end.

  (** lambda_lifting.v:347-363 *)
  Fixpoint stack_push (x : var) (curr_f : list var) (e : exp) : nat :=
    match e with
    | Econstr _ _ _ e | Eproj _ _ _ _ e | Eprim_val _ _ e | Eprim _ _ _ e | Efun _ e => stack_push x curr_f e
    | Eapp _ _ _ | Ehalt _ => 0
    | Ecase _ P => fold_left (fun n br => Nat.max n (stack_push x curr_f (snd br))) P 0
    | Eletapp _ f ft ys e =>
        let n := stack_push x curr_f e in
        if occurs x curr_f e then n + 1 else n
    end.

  (** lambda_lifting.v:365-373 *)
  Fixpoint stack_push_fundefs_aux (x : var) (curr_f : list var) (B : fundefs) : nat :=
    match B with
    | Fcons f ft xs e B' => Nat.max (stack_push x curr_f e) (stack_push_fundefs_aux x curr_f B')
    | Fnil => 0
    end.
  Definition stack_push_fundefs (x : var) (B : fundefs) : nat := stack_push_fundefs_aux x (fundefs_names B) B.

  (** lambda_lifting.v:403-406: the variables of a bundle *)
  Definition lift_fvs (fm : FunInfoMap) (gfuns : GFunMap) (B : fundefs) : list var :=
    filter (fun x => match get x gfuns with Some _ => false | None => true end) (fundefs_true_fv fm B).

  (** lambda_lifting.v:406-422: the variables that are lifted, all or none *)
  Definition lifted_vars (fvs : list var) (B : fundefs) : list var :=
    let lfvs := if existsb (fun x => Nat.ltb max_push (stack_push_fundefs x B)) fvs then [] else fvs in
    let lifted_args := max_args - fundefs_max_params B in
    if Nat.ltb lifted_args (length lfvs) then [] else lfvs.

  (** lambda_lifting.v:375-489; [PS.union] adds a set to a set *)
  Fixpoint exp_lambda_lift (e : exp) (scope : list var) (fvm : VarInfoMap) (fm : FunInfoMap) (gfuns : GFunMap) (s : lst)
    : option (exp * lst) :=
    match e with
    | Econstr x t ys e =>
        do (e', s) <- exp_lambda_lift e (sadd x scope) fvm fm gfuns s;
        Some (Econstr x t (rename_lst fvm ys) e', s)
    | Ecase x P =>
        do (P', s) <-
          (fix mapM_ll (l : list (ctor_tag * exp)) (s : lst) : option (list (ctor_tag * exp) * lst) :=
             match l with
             | [] => Some ([], s)
             | (c, e) :: P =>
                 do (e', s) <- exp_lambda_lift e scope fvm fm gfuns s;
                 do (P', s) <- mapM_ll P s;
                 Some ((c, e') :: P', s)
             end) P s;
        Some (Ecase (rename fvm x) P', s)
    | Eproj x t n y e =>
        do (e', s) <- exp_lambda_lift e (sadd x scope) fvm fm gfuns s;
        Some (Eproj x t n (rename fvm y) e', s)
    | Eletapp x f ft ys e =>
        do (e', s) <- exp_lambda_lift e (sadd x scope) fvm fm gfuns s;
        match get f fm with
        | Some (Fun f' ft' fvs sfvs args) =>
            if lift_dec args scope
            then Some (Eletapp x (rename fvm f') ft' (rename_lst fvm (ys ++ args)) e', s)
            else Some (Eletapp x (rename fvm f) ft (rename_lst fvm ys) e', s)
        | Some (NoLiftFun _ _) | None => Some (Eletapp x (rename fvm f) ft (rename_lst fvm ys) e', s)
        end
    | Efun B e =>
        let sfvs := lift_fvs fm gfuns B in
        let fvs := elements sfvs in
        let lfvs := lifted_vars fvs B in
        let '(fm', gfuns', s) := add_functions B fvs sfvs lfvs fm gfuns s in
        let names := fundefs_names B in
        do (B', s) <- fundefs_lambda_lift B B names fvm fm' gfuns' s;
        do (ob, fvm', s) <- make_wrappers B fvm fm' s;
        do (e', s) <- exp_lambda_lift e (union_list scope names) fvm' fm' gfuns' s;
        match ob with
        | Some Bw => Some (Efun B' (Efun Bw e'), s)
        | None => Some (Efun B' e', s)
        end
    | Eapp f ft xs =>
        match get f fm with
        | Some (Fun f' ft' fvs sfvs args) =>
            if lift_dec args scope
            then Some (Eapp (rename fvm f') ft' (rename_lst fvm (xs ++ args)), s)
            else Some (Eapp (rename fvm f) ft (rename_lst fvm xs), s)
        | Some (NoLiftFun _ _) | None => Some (Eapp (rename fvm f) ft (rename_lst fvm xs), s)
        end
    | Eprim_val x p e =>
        do (e', s) <- exp_lambda_lift e (sadd x scope) fvm fm gfuns s;
        Some (Eprim_val x p e', s)
    | Eprim x f ys e =>
        do (e', s) <- exp_lambda_lift e (sadd x scope) fvm fm gfuns s;
        Some (Eprim x f (rename_lst fvm ys) e', s)
    | Ehalt x => Some (Ehalt (rename fvm x), s)
    end
  with fundefs_lambda_lift (B Bfull : fundefs) (fnames : list var) (fvm : VarInfoMap) (fm : FunInfoMap) (gfuns : GFunMap) (s : lst)
    : option (fundefs * lst) :=
    match B with
    | Fcons f ft xs e B =>
        match get f fm with
        | Some (Fun f' ft' fvs sfvs args) =>
            let '(ys, fvm', s) := add_free_vars args fvm s in
            do (ob, fvm'', s) <- make_wrappers Bfull fvm' fm s;
            do (e', s) <- exp_lambda_lift e (union_list (union_list sfvs xs) fnames) fvm'' fm gfuns s;
            do (B', s) <- fundefs_lambda_lift B Bfull fnames fvm fm gfuns s;
            match ob with
            | Some Bw => Some (Fcons f' ft' (xs ++ ys) (Efun Bw e') B', s)
            | None => None
            end
        | Some (NoLiftFun fvs sfvs) =>
            do (e', s) <- exp_lambda_lift e (union_list (union_list sfvs xs) fnames) fvm fm gfuns s;
            do (B', s) <- fundefs_lambda_lift B Bfull fnames fvm fm gfuns s;
            Some (Fcons f ft xs e' B', s)
        | None => None
        end
    | Fnil => Some (Fnil, s)
    end.
End Lift.

(** lambda_lifting.v:506-509 *)
Definition lift_all (fvs scope : list var) : bool := true.
Definition lift_conservative (fvs scope : list var) : bool := forallb (fun x => mem x scope) fvs.

(** lambda_lifting.v:511-517; on the state fields above *)
Definition lambda_lift (args no_push : nat) (inl : bool) (e : exp) (s : lst) : option (exp * lst) :=
  exp_lambda_lift args no_push (if inl then lift_all else lift_conservative) e [] [] [] [] s.

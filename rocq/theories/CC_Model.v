(* Closure conversion: theories/LambdaANF/closure_conversion.v.

   Simplifications: the state monad is explicit state passing (no operation of
   this pass raises an error), and of the compilation state only the fields the
   pass uses are kept: the next variable, the next constructor and type tags and
   the constructor environment.  The names recorded for printing are left out. *)
From Coq Require Import List Arith NArith PArith Bool.
From Verif Require Import ANF_Syntax.
Import ListNotations.

(* theories/LambdaANF/state.v:25-34, the fields used. *)
Record cst := mkst { nv : var; nct : ctor_tag; nit : ind_tag; tbl : ctor_env }.

(* theories/LambdaANF/state.v:45-50, 93-98 get_name, get_named_str. *)
Definition new_var (s : cst) : var * cst :=
  (nv s, mkst (nv s + 1)%positive (nct s) (nit s) (tbl s)).

(* theories/LambdaANF/state.v:101-112 make_record_ctor_tag. *)
Definition new_record (n : N) (s : cst) : ctor_tag * cst :=
  (nct s, mkst (nv s) (nct s + 1)%positive (nit s + 1)%positive
     (set (nct s) {| ctor_ind_tag := nit s; ctor_arity := n; ctor_ordinal := 0%N |} (tbl s))).

(* theories/LambdaANF/closure_conversion.v:247-258 VarInfo, VarInfoMap; :261-263 GFunInfo, GFunMap. *)
Inductive VarInfo : Type :=
| FVar : N -> VarInfo
| MRFun : var -> VarInfo
| BoundVar : VarInfo.
Definition VarInfoMap := tmap VarInfo.
Inductive GFunInfo : Type := GFun : GFunInfo.
Definition GFunMap := tmap GFunInfo.

(* [PS.elements]: the elements of a set in increasing order (sets are
   red-black trees over positives, theories/LambdaANF/set_util.v). *)
Fixpoint insert (x : var) (l : list var) : list var :=
  match l with
  | [] => [x]
  | y :: l' => if Pos.leb x y then x :: l else y :: insert x l'
  end.
Definition elements (s : list var) : list var := fold_right insert [] s.

Section CC.
  (* theories/LambdaANF/closure_conversion.v:27-29 tag of closure records and its type *)
  Variables (clo_tag : ctor_tag) (clo_itag : ind_tag).

  (* theories/LambdaANF/closure_conversion.v:279-306 get_var. *)
  Definition get_var (x : var) (map : VarInfoMap) (gfuns : GFunMap) (c : ctor_tag) (G : var) (s : cst)
    : var * (exp -> exp) * cst :=
    match get x map with
    | Some (FVar pos) =>
      let (y, s) := new_var s in
      (y, fun e => Eproj y c pos G e, s)
    | Some (MRFun env) =>
      let (y, s) := new_var s in
      (y, fun e => Econstr y clo_tag [x; env] e, s)
    | Some BoundVar => (x, fun e => e, s)
    | None =>
      match get x gfuns with
      | Some GFun =>
        let (c_env, s) := new_record 0 s in
        let (y, s) := new_var s in
        let (g_env, s) := new_var s in
        (y, fun e => Econstr g_env c_env [] (Econstr y clo_tag [x; g_env] e), s)
      | None => (x, fun e => e, s)
      end
    end.

  (* theories/LambdaANF/closure_conversion.v:308-318 get_vars. *)
  Fixpoint get_vars (xs : list var) (map : VarInfoMap) (gfuns : GFunMap) (c : ctor_tag) (G : var) (s : cst)
    : list var * (exp -> exp) * cst :=
    match xs with
    | [] => ([], fun e => e, s)
    | x :: xs =>
      let '(y, f, s) := get_var x map gfuns c G s in
      let '(ys, f', s) := get_vars xs map gfuns c G s in
      (y :: ys, fun e => f (f' e), s)
    end.

  (* theories/LambdaANF/closure_conversion.v:321-326 add_params. *)
  Fixpoint add_params (args : list var) (mapfv : VarInfoMap) : VarInfoMap :=
    match args with
    | [] => mapfv
    | x :: xs => set x BoundVar (add_params xs mapfv)
    end.

  (* theories/LambdaANF/closure_conversion.v:334-339, local to make_env. *)
  Fixpoint add_fvs (l : list var) (n : N) (map : VarInfoMap) : VarInfoMap * N :=
    match l with
    | [] => (map, n)
    | x :: xs => add_fvs xs (n + 1)%N (set x (FVar n) map)
    end.

  (* theories/LambdaANF/closure_conversion.v:329-344 make_env. *)
  Definition make_env (fvs : list var) (mapfv_old : VarInfoMap) (c_old : ctor_tag) (G_new G_old : var)
             (gfuns : GFunMap) (s : cst) : ctor_tag * VarInfoMap * (exp -> exp) * cst :=
    let '(map_new', n) := add_fvs fvs 0%N [] in
    let '(fv', g', s) := get_vars fvs mapfv_old gfuns c_old G_old s in
    let (c_new, s) := new_record n s in
    (c_new, map_new', fun e => g' (Econstr G_new c_new fv' e), s).

  (* theories/LambdaANF/closure_conversion.v:347-355 add_closures. *)
  Fixpoint add_closures (defs : fundefs) (mapfv : VarInfoMap) (env : var) : VarInfoMap :=
    match defs with
    | Fcons f _ _ _ defs' => set f (MRFun env) (add_closures defs' mapfv env)
    | Fnil => mapfv
    end.

  (* theories/LambdaANF/closure_conversion.v:358-368 add_closures_gfuns. *)
  Fixpoint add_closures_gfuns (defs : fundefs) (gfuns : GFunMap) (is_closed : bool) : GFunMap :=
    match defs with
    | Fcons f _ _ _ defs' =>
      let gfuns' := add_closures_gfuns defs' gfuns is_closed in
      if is_closed then set f GFun gfuns' else gfuns
    | Fnil => gfuns
    end.

  (* theories/LambdaANF/closure_conversion.v:415-416, 422 local to the [Efun] case. *)
  Definition env_vars (defs : fundefs) (gfuns : GFunMap) : list var :=
    filter (fun x => match get x gfuns with Some _ => false | None => true end) (elements (fundefs_fv defs)).
  Definition no_vars (fvs : list var) : bool := match fvs with [] => true | _ => false end.

  (* theories/LambdaANF/closure_conversion.v:375-470 exp_closure_conv, fundefs_closure_conv. *)
  Fixpoint exp_closure_conv (e : exp) (mapfv : VarInfoMap) (gfuns : GFunMap) (c : ctor_tag) (G : var) (s : cst)
    : exp * (exp -> exp) * cst :=
    match e with
    | Econstr x tag ys e' =>
      let '(ys', f, s) := get_vars ys mapfv gfuns c G s in
      let '(e1, f1, s) := exp_closure_conv e' (set x BoundVar mapfv) gfuns c G s in
      (Econstr x tag ys' (f1 e1), f, s)
    | Ecase x pats =>
      let '(pats', s) :=
        (fix mapM_cc (l : list (ctor_tag * exp)) (s : cst) :=
           match l with
           | [] => ([], s)
           | (y, e) :: xs =>
             let '(e1, f1, s) := exp_closure_conv e mapfv gfuns c G s in
             let '(xs', s) := mapM_cc xs s in
             ((y, f1 e1) :: xs', s)
           end) pats s in
      let '(x', f1, s) := get_var x mapfv gfuns c G s in
      (Ecase x' pats', f1, s)
    | Eproj x tag n y e' =>
      let '(y', f, s) := get_var y mapfv gfuns c G s in
      let '(e1, f1, s) := exp_closure_conv e' (set x BoundVar mapfv) gfuns c G s in
      (Eproj x tag n y' (f1 e1), f, s)
    | Eletapp x f ft xs e' =>
      let '(f', g1, s) := get_var f mapfv gfuns c G s in
      let '(xs', g2, s) := get_vars xs mapfv gfuns c G s in
      let (ptr, s) := new_var s in
      let (G', s) := new_var s in
      let '(e1, f1, s) := exp_closure_conv e' (set x BoundVar mapfv) gfuns c G s in
      (Eproj ptr clo_tag 0 f' (Eproj G' clo_tag 1 f' (Eletapp x ptr ft (G' :: xs') (f1 e1))),
       fun e => g1 (g2 e), s)
    | Efun defs e =>
      let fvs := env_vars defs gfuns in
      let (G', s) := new_var s in
      let '(c', mapfv_new, g1, s) := make_env fvs mapfv c G' G gfuns s in
      let mapfv' := add_closures defs mapfv G' in
      let gfuns' := add_closures_gfuns defs gfuns (no_vars fvs) in
      let '(defs', s) := fundefs_closure_conv defs defs mapfv_new gfuns' c' s in
      let '(e1, f1, s) := exp_closure_conv e mapfv' gfuns' c G s in
      (Efun defs' (f1 e1), g1, s)
    | Eapp f ft xs =>
      let '(f', g1, s) := get_var f mapfv gfuns c G s in
      let '(xs', g2, s) := get_vars xs mapfv gfuns c G s in
      let (ptr, s) := new_var s in
      let (G', s) := new_var s in
      (Eproj ptr clo_tag 0 f' (Eproj G' clo_tag 1 f' (Eapp ptr ft (G' :: xs'))), fun e => g1 (g2 e), s)
    | Eprim_val x p e' =>
      let '(e1, f1, s) := exp_closure_conv e' (set x BoundVar mapfv) gfuns c G s in
      (Eprim_val x p (f1 e1), fun e => e, s)
    | Eprim x p ys e' =>
      let '(ys', f, s) := get_vars ys mapfv gfuns c G s in
      let '(e1, f1, s) := exp_closure_conv e' (set x BoundVar mapfv) gfuns c G s in
      (Eprim x p ys' (f1 e1), f, s)
    | Ehalt x =>
      let '(x', f, s) := get_var x mapfv gfuns c G s in
      (Ehalt x', f, s)
    end
  with fundefs_closure_conv (all_defs defs : fundefs) (mapfv : VarInfoMap) (gfuns : GFunMap) (c : ctor_tag) (s : cst)
    : fundefs * cst :=
    match defs with
    | Fcons f tag ys e defs' =>
      let (G, s) := new_var s in
      let mapfv' := add_params ys (add_closures all_defs mapfv G) in
      let '(e1, f1, s) := exp_closure_conv e mapfv' gfuns c G s in
      let '(defs'', s) := fundefs_closure_conv all_defs defs' mapfv gfuns c s in
      (Fcons f tag (G :: ys) (f1 e1) defs'', s)
    | Fnil => (Fnil, s)
    end.

  (* theories/LambdaANF/closure_conversion.v:472-473 populate_map. *)
  Definition populate_map (s : list var) (map : VarInfoMap) : VarInfoMap :=
    fold_left (fun map x => set x BoundVar map) (elements s) map.

  (* theories/LambdaANF/cps.v:411-418 add_closure_tag. *)
  Definition add_closure_tag (c : ctor_tag) (i : ind_tag) (cenv : ctor_env) : ctor_env :=
    set c {| ctor_ind_tag := i; ctor_arity := 2%N; ctor_ordinal := 0%N |} cenv.

  (* theories/LambdaANF/closure_conversion.v:477-495 get_name, closure_conversion_top. *)
  Definition closure_conversion_top (e : exp) (s : cst) : exp * cst :=
    let (G, s) := new_var s in
    let map := populate_map (exp_fv e) [] in
    let '(e', f', s) := exp_closure_conv e map [] 1%positive G s in
    (f' e', mkst (nv s) (nct s) (nit s) (add_closure_tag clo_tag clo_itag (tbl s))).
End CC.

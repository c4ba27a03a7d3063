(* Conversion to continuation-passing style:
   theories/LambdaANF/LambdaBoxLocal_to_LambdaANF.v.

   Simplifications: as for A-normalisation (AN_Model): the compilation state is
   its next fresh variable, the exception monad is [option], a registered
   primitive is represented by its arity. *)
From Coq Require Import List Arith NArith PArith String Bool.
From Verif Require Import ANF_Syntax ANF_Subst LB_Model AN_Model.
Import ListNotations.

Section Cps.
  (* :21-23 section parameters; [prims] maps primitives to arities. *)
  Variable prims : tmap nat.
  Variables func_tag kon_tag default_tag : positive.
  Variable tgm : conId_map.

  (* :213-226 convert_prim. *)
  Fixpoint convert_prim (n : nat) (p : positive) (args : list var) (kont : var) (s : positive) : exp * positive :=
    match n with
    | 0 => let (pr, s) := fresh s in (Eprim pr p (rev args) (Eapp kont kon_tag [pr]), s)
    | S n =>
      let (arg, s) := fresh s in
      let (kont1, s) := fresh s in
      let (f, s) := fresh s in
      let (trm, s) := convert_prim n p (arg :: args) kont1 s in
      (Efun (Fcons f func_tag [kont1; arg] trm Fnil) (Eapp kont kon_tag [f]), s)
    end.

  (* :247-377 cps_cvt, cps_cvt_exps, cps_cvt_efnlst, cps_cvt_branches;
     [get_named_lst (names_lst_len lnames i)] (:229-234) takes [i] fresh names. *)
  Fixpoint cps_cvt (e : lexp) (vn : list var) (k : var) (s : positive) : option (exp * positive) :=
    match e with
    | Var_e x =>
      match nth_error vn (N.to_nat x) with
      | Some v => Some (Eapp k kon_tag [v], s)
      | None => None
      end
    | App_e e1 e2 =>
      let (x1, s) := fresh s in
      let (k1, s) := fresh s in
      let (x2, s) := fresh s in
      let (k2, s) := fresh s in
      do (e1', s) <- cps_cvt e1 vn k1 s ;
      do (e2', s) <- cps_cvt e2 vn k2 s ;
      Some (Efun (Fcons k1 kon_tag [x1]
                    (Efun (Fcons k2 kon_tag [x2] (Eapp x1 func_tag [k; x2]) Fnil) e2') Fnil) e1', s)
    | Lam_e _ e1 =>
      let (x1, s) := fresh s in
      let (f, s) := fresh s in
      let (k1, s) := fresh s in
      do (e1', s) <- cps_cvt e1 (x1 :: vn) k1 s ;
      Some (Efun (Fcons f func_tag [k1; x1] e1' Fnil) (Eapp k kon_tag [f]), s)
    | Let_e _ e1 e2 =>
      let (x, s) := fresh s in
      let (k1, s) := fresh s in
      do (e2', s) <- cps_cvt e2 (x :: vn) k s ;
      do (e1', s) <- cps_cvt e1 vn k1 s ;
      Some (Efun (Fcons k1 kon_tag [x] e2' Fnil) e1', s)
    | Con_e dci es =>
      let c_tag := dcon_to_tag default_tag dci tgm in
      let (x', s) := fresh s in
      let (xs, s) := fresh_list (N.to_nat (exps_length es)) s in
      let (ks, s) := fresh_list (N.to_nat (exps_length es)) s in
      cps_cvt_exps es vn (Econstr x' c_tag xs (Eapp k kon_tag [x'])) xs ks s
    | Fix_e fnlst i =>
      let (nlst, s) := fresh_list (efnlength fnlst) s in
      do (fdefs, s) <- cps_cvt_efnlst fnlst (rev nlst ++ vn) nlst s ;
      match nth_error nlst (N.to_nat i) with
      | Some i' => Some (Efun fdefs (Eapp k kon_tag [i']), s)
      | None => None
      end
    | Match_e e1 n bl =>
      let (x1, s) := fresh s in
      let (k1, s) := fresh s in
      do (e1', s) <- cps_cvt e1 vn k1 s ;
      do (cbl, s) <- cps_cvt_branches bl vn k x1 s ;
      Some (Efun (Fcons k1 kon_tag [x1] (Ecase x1 cbl) Fnil) e1', s)
    | Prf_e =>
      let (x, s) := fresh s in Some (Econstr x default_tag [] (Eapp k kon_tag [x]), s)
    | Prim_val_e p =>
      let (x, s) := fresh s in Some (Eprim_val x p (Eapp k kon_tag [x]), s)
    | Prim_e p =>
      match get p prims with
      | Some n => Some (convert_prim n p [] k s)
      | None => None
      end
    end
  with cps_cvt_exps (es : exps) (vn : list var) (e_app : exp) (xs ks : list var) (s : positive)
    : option (exp * positive) :=
    match es with
    | enil => Some (e_app, s)
    | econs e es' =>
      match xs, ks with
      | [], _ | _, [] => None
      | x1 :: xs, k1 :: ks =>
        do (e', s) <- cps_cvt e vn k1 s ;
        do (e_exp, s) <- cps_cvt_exps es' vn e_app xs ks s ;
        Some (Efun (Fcons k1 kon_tag [x1] e_exp Fnil) e', s)
      end
    end
  with cps_cvt_efnlst (fdefs : efnlst) (vn nlst : list var) (s : positive) : option (fundefs * positive) :=
    match fdefs with
    | eflnil => Some (Fnil, s)
    | eflcons _ e1 fdefs' =>
      let (x, s) := fresh s in
      let (k', s) := fresh s in
      let curr_var := hd 1%positive nlst in
      match e1 with
      | Lam_e _ e2 =>
        do (ce, s) <- cps_cvt e2 (x :: vn) k' s ;
        do (cfdefs, s) <- cps_cvt_efnlst fdefs' vn (tl nlst) s ;
        Some (Fcons curr_var func_tag [k'; x] ce cfdefs, s)
      | _ => None
      end
    end
  with cps_cvt_branches (bl : branches_e) (vn : list var) (k r : var) (s : positive)
    : option (list (ctor_tag * exp) * positive) :=
    match bl with
    | brnil_e => Some ([], s)
    | brcons_e dc n e bl' =>
      let tg := dcon_to_tag default_tag dc tgm in
      do (cbl, s) <- cps_cvt_branches bl' vn k r s ;
      let (vars, s) := fresh_list (N.to_nat (nargs n)) s in
      let ctx_p := ctx_bind_proj tg r vars (List.length vars) in
      do (ce, s) <- cps_cvt e (vars ++ vn) k s ;
      Some ((tg, app_ctx_f ctx_p ce) :: cbl, s)
    end.

  (* :380-388 convert_whole_exp, run from the given next variable as in
     convert_top (:391-400). *)
  Definition convert_whole_exp (next_id : positive) (e : lexp) : option (exp * positive) :=
    let (k, s) := fresh next_id in
    let (f, s) := fresh s in
    let (x, s) := fresh s in
    do (e', s) <- cps_cvt e [] k s ;
    Some (Efun (Fcons f kon_tag [k] e' (Fcons k kon_tag [x] (Ehalt x) Fnil)) (Eapp f kon_tag [k]), s).
End Cps.

(* The erased language LambdaBoxMut: theories/LambdaBoxMut/compile.v, term.v,
   wcbvEval.v, program.v, and its environments, theories/common/AstCommon.v.

   Simplifications: kernel names are strings; the exception monad is [option]
   (messages dropped); the recursive-argument number of a fixpoint is kept but
   plays no role, as in the code.  The contents of inductive packages are left
   out of [ecTyp]. *)
From Coq Require Import List Arith NArith String Bool.
From Verif Require Import LB_Model.
Import ListNotations.
Local Open Scope nat_scope.

(* compile.v:35-59 Term, Terms, Brs, Defs. *)
Inductive Term : Type :=
| TRel : nat -> Term
| TProof : Term
| TLambda : name -> Term -> Term
| TLetIn : name -> Term -> Term -> Term
| TApp : Term -> Term -> Term
| TConst : kername -> Term
| TConstruct : inductive -> nat -> Terms -> Term
| TCase : inductive -> Term -> Brs -> Term
| TFix : Defs -> nat -> Term
| TPrim : primitive_value -> Term
| TWrong : string -> Term
with Terms : Type :=
| tnil : Terms
| tcons : Term -> Terms -> Terms
with Brs : Type :=
| bnil : Brs
| bcons : list name -> Term -> Brs -> Brs
with Defs : Type :=
| dnil : Defs
| dcons : name -> Term -> nat -> Defs -> Defs.

(* compile.v:60-65 TrmTrmsBrsDefs_ind. *)
Scheme Trm_ind' := Induction for Term Sort Prop
  with Trms_ind' := Induction for Terms Sort Prop
  with Brs_ind' := Induction for Brs Sort Prop
  with Defs_ind' := Induction for Defs Sort Prop.
Combined Scheme TrmTrmsBrsDefs_ind from Trm_ind', Trms_ind', Brs_ind', Defs_ind'.

(* compile.v:76-80 tlength. *)
Fixpoint tlength (ts : Terms) : nat :=
  match ts with tnil => 0 | tcons _ ts => S (tlength ts) end.

(* compile.v:224-228 dlength. *)
Fixpoint dlength (ts : Defs) : nat :=
  match ts with dnil => 0 | dcons _ _ _ ts => S (dlength ts) end.

(* term.v:1277-1289 dnth, dnthBody. *)
Fixpoint dnthBody (n : nat) (l : Defs) {struct l} : option Term :=
  match l with
  | dnil => None
  | dcons _ tm _ xs => match n with 0 => Some tm | S m => dnthBody m xs end
  end.

(* term.v:1320-1327 bnth. *)
Fixpoint bnth (n : nat) (l : Brs) {struct l} : option (list name * Term) :=
  match l with
  | bnil => None
  | bcons ix x bs => match n with 0 => Some (ix, x) | S m => bnth m bs end
  end.

(* term.v:2499-2531 instantiate and companions (the substitute [tin] is a
   section variable there). *)
Fixpoint instantiate (tin : Term) (n : nat) (tbod : Term) : Term :=
  match tbod with
  | TRel m =>
    match Nat.compare n m with
    | Datatypes.Eq => tin
    | Gt => TRel m
    | Lt => TRel (pred m)
    end
  | TApp t a => TApp (instantiate tin n t) (instantiate tin n a)
  | TLambda nm bod => TLambda nm (instantiate tin (S n) bod)
  | TCase i s ts => TCase i (instantiate tin n s) (instantiateBrs tin n ts)
  | TLetIn nm tdef bod =>
    TLetIn nm (instantiate tin n tdef) (instantiate tin (S n) bod)
  | TFix ds m => TFix (instantiateDefs tin (n + dlength ds) ds) m
  | TProof => TProof
  | TConstruct i m args => TConstruct i m (instantiates tin n args)
  | x => x
  end
with instantiates (tin : Term) (n : nat) (args : Terms) : Terms :=
  match args with
  | tnil => tnil
  | tcons t ts => tcons (instantiate tin n t) (instantiates tin n ts)
  end
with instantiateBrs (tin : Term) (n : nat) (bs : Brs) : Brs :=
  match bs with
  | bnil => bnil
  | bcons m t ts =>
    bcons m (instantiate tin (List.length m + n) t) (instantiateBrs tin n ts)
  end
with instantiateDefs (tin : Term) (n : nat) (ds : Defs) : Defs :=
  match ds with
  | dnil => dnil
  | dcons nm bod rarg ds =>
    dcons nm (instantiate tin n bod) rarg (instantiateDefs tin n ds)
  end.

(* term.v:3496-3500 instantiatel. *)
Fixpoint instantiatel (s : Terms) (k : nat) (t : Term) : Term :=
  match s with
  | tnil => t
  | tcons a s => instantiatel s k (instantiate a (tlength s + k) t)
  end.

(* term.v:3686 whBetaStep. *)
Definition whBetaStep (bod arg : Term) : Term := instantiate arg 0 bod.

(* term.v:3696-3703 whCaseStep. *)
Definition whCaseStep (cstrNbr : nat) (ts : Terms) (brs : Brs) : option Term :=
  match bnth cstrNbr brs with
  | Some (nargs, t) =>
    if Nat.eqb (List.length nargs) (tlength ts) then Some (instantiatel ts 0 t) else None
  | None => None
  end.

(* term.v:3771-3780 fl, whFixStep. *)
Definition fix_unfold (body : Term) (dts : Defs) : Term :=
  fold_left (fun bod ndx => instantiate (TFix dts ndx) 0 bod)
            (list_to_zero (dlength dts)) body.
Definition whFixStep (dts : Defs) (m : nat) : option Term :=
  match dnthBody m dts with
  | Some body => Some (fix_unfold body dts)
  | None => None
  end.

(* AstCommon.v:154-156 envClass, 196 environ. *)
Inductive envClass : Type :=
| ecTrm : Term -> envClass
| ecTyp : nat -> envClass.
Definition environ := list (kername * envClass).

(* AstCommon.v:277-282 lookup. *)
Fixpoint lookup (nm : kername) (p : environ) : option envClass :=
  match p with
  | [] => None
  | (s, ec) :: p => if String.eqb nm s then Some ec else lookup nm p
  end.

(* AstCommon.v:284-288 lookupDfn. *)
Definition lookupDfn (nm : kername) (p : environ) : option Term :=
  match lookup nm p with Some (ecTrm t) => Some t | _ => None end.

(* The head forms the congruence rule of wcbvEval.v:60-61 excludes. *)
Definition stuck_head (t : Term) : Prop :=
  match t with
  | TLambda _ _ | TFix _ _ | TConstruct _ _ _ | TProof | TPrim _ => False
  | _ => True
  end.

(* wcbvEval.v:23-72 WcbvEval, WcbvEvals. *)
Inductive WcbvEval (p : environ) : Term -> Term -> Prop :=
| wLam : forall nm bod, WcbvEval p (TLambda nm bod) (TLambda nm bod)
| wProof : WcbvEval p TProof TProof
| wPrim : forall v, WcbvEval p (TPrim v) (TPrim v)
| wAppProof : forall fn arg arg',
    WcbvEval p fn TProof -> WcbvEval p arg arg' -> WcbvEval p (TApp fn arg) TProof
| wConstruct : forall i r args args',
    WcbvEvals p args args' -> WcbvEval p (TConstruct i r args) (TConstruct i r args')
| wFix : forall dts m, WcbvEval p (TFix dts m) (TFix dts m)
| wConst : forall nm t s,
    lookupDfn nm p = Some t -> WcbvEval p t s -> WcbvEval p (TConst nm) s
| wAppLam : forall fn bod a1 a1' s nm,
    WcbvEval p fn (TLambda nm bod) -> WcbvEval p a1 a1' ->
    WcbvEval p (whBetaStep bod a1') s -> WcbvEval p (TApp fn a1) s
| wLetIn : forall nm dfn bod dfn' s,
    WcbvEval p dfn dfn' -> WcbvEval p (instantiate dfn' 0 bod) s ->
    WcbvEval p (TLetIn nm dfn bod) s
| wAppFix : forall dts m fn a1 a1' x s,
    WcbvEval p fn (TFix dts m) -> whFixStep dts m = Some x ->
    WcbvEval p a1 a1' -> WcbvEval p (TApp x a1') s -> WcbvEval p (TApp fn a1) s
| wAppCong : forall fn fn' arg arg',
    WcbvEval p fn fn' -> stuck_head fn' -> WcbvEval p arg arg' ->
    WcbvEval p (TApp fn arg) (TApp fn' arg')
| wCase : forall mch i n args brs cs s,
    WcbvEval p mch (TConstruct i n args) -> whCaseStep n args brs = Some cs ->
    WcbvEval p cs s -> WcbvEval p (TCase i mch brs) s
with WcbvEvals (p : environ) : Terms -> Terms -> Prop :=
| wNil : WcbvEvals p tnil tnil
| wCons : forall t t' ts ts',
    WcbvEval p t t' -> WcbvEvals p ts ts' -> WcbvEvals p (tcons t ts) (tcons t' ts').

(* wcbvEval.v:73-75 WcbvEvalEvals_ind. *)
Scheme WcbvEval1_ind := Minimality for WcbvEval Sort Prop
  with WcbvEvals1_ind := Minimality for WcbvEvals Sort Prop.
Combined Scheme WcbvEvalEvals_ind from WcbvEval1_ind, WcbvEvals1_ind.

(* wcbvEval.v:301-395 wcbvEval, wcbvEvals. *)
Fixpoint wcbvEval (p : environ) (tmr : nat) (t : Term) {struct tmr} : option Term :=
  match tmr with
  | 0 => None
  | S n =>
    match t with
    | TConst nm =>
      match lookup nm p with
      | Some (ecTrm t) => wcbvEval p n t
      | Some (ecTyp _) => None
      | None => None
      end
    | TApp fn a1 =>
      match wcbvEval p n fn with
      | None => None
      | Some TProof =>
        match wcbvEval p n a1 with None => None | Some _ => Some TProof end
      | Some (TFix dts m) =>
        match whFixStep dts m with
        | None => None
        | Some f =>
          match wcbvEval p n a1 with
          | None => None
          | Some b1 => wcbvEval p n (TApp f b1)
          end
        end
      | Some (TLambda _ bod) =>
        match wcbvEval p n a1 with
        | None => None
        | Some b1 => wcbvEval p n (whBetaStep bod b1)
        end
      | Some (TConstruct _ _ _) => None
      | Some (TPrim _) => None
      | Some u =>
        match wcbvEval p n a1 with None => None | Some b1 => Some (TApp u b1) end
      end
    | TCase i mch brs =>
      match wcbvEval p n mch with
      | Some (TConstruct j r args) =>
        match whCaseStep r args brs with
        | None => None
        | Some cs => if ind_eqb i j then wcbvEval p n cs else None
        end
      | _ => None
      end
    | TLetIn _ df bod =>
      match wcbvEval p n df with
      | Some df' => wcbvEval p n (instantiate df' 0 bod)
      | None => None
      end
    | TConstruct i cn args =>
      match wcbvEvals p n args with
      | Some args' => Some (TConstruct i cn args')
      | None => None
      end
    | TProof => Some TProof
    | TPrim v => Some (TPrim v)
    | TLambda nn t => Some (TLambda nn t)
    | TFix mfp br => Some (TFix mfp br)
    | TRel _ => None
    | TWrong _ => None
    end
  end
with wcbvEvals (p : environ) (tmr : nat) (ts : Terms) {struct tmr} : option Terms :=
  match tmr with
  | 0 => None
  | S n =>
    match ts with
    | tnil => Some tnil
    | tcons s ss =>
      match wcbvEval p n s, wcbvEvals p n ss with
      | Some es, Some ess => Some (tcons es ess)
      | _, _ => None
      end
    end
  end.

(* ---- LambdaBoxLocal/LambdaBoxMut_to_LambdaBoxLocal.v ---- *)

(* :27 env. *)
Definition lenv := list (kername * lexp).

(* :29-33 cst_offset. *)
Fixpoint cst_offset (e : lenv) (s : kername) : N :=
  match e with
  | [] => 0%N
  | (c, _) :: tl => if String.eqb s c then 0%N else (1 + cst_offset tl s)%N
  end.

(* :35-39 find_prim (a primitive is represented by its kernel name). *)
Fixpoint find_prim (prims : list (kername * positive)) (n : kername) : option positive :=
  match prims with
  | [] => None
  | (k, pos) :: prims => if String.eqb n k then Some pos else find_prim prims n
  end.

(* :59-117 trans_args, trans_brs, trans_fixes, trans. *)
Fixpoint trans (e : lenv) (prims : list (kername * positive)) (k : N) (t : Term) : lexp :=
  match t with
  | TWrong _ => Prf_e
  | TProof => Prf_e
  | TRel n => Var_e (N.of_nat n)
  | TLambda n t => Lam_e n (trans e prims (1 + k)%N t)
  | TLetIn n t u => Let_e n (trans e prims k t) (trans e prims (1 + k)%N u)
  | TApp t u => App_e (trans e prims k t) (trans e prims k u)
  | TConst s =>
    match find_prim prims s with
    | Some p => Prim_e p
    | None => Var_e (cst_offset e s + k)%N
    end
  | TConstruct ind c args => Con_e (ind, N.of_nat c) (trans_args e prims k args)
  | TCase ind t brs => Match_e (trans e prims k t) 0%N (trans_brs e prims ind k 0%N brs)
  | TFix d n => Fix_e (trans_fixes e prims (N.of_nat (dlength d) + k)%N d) (N.of_nat n)
  | TPrim p => Prim_val_e p
  end
with trans_args (e : lenv) (prims : list (kername * positive)) (k : N) (ts : Terms) : exps :=
  match ts with
  | tnil => enil
  | tcons t ts => econs (trans e prims k t) (trans_args e prims k ts)
  end
with trans_brs (e : lenv) (prims : list (kername * positive)) (ind : inductive) (k n : N)
       (l : Brs) : branches_e :=
  match l with
  | bnil => brnil_e
  | bcons nargs t ts =>
    brcons_e (ind, n) (N.of_nat (List.length nargs), nargs)
      (trans e prims (k + N.of_nat (List.length nargs))%N t)
      (trans_brs e prims ind k (n + 1)%N ts)
  end
with trans_fixes (e : lenv) (prims : list (kername * positive)) (k : N) (l : Defs) : efnlst :=
  match l with
  | dnil => eflnil
  | dcons na t _ l' => eflcons na (trans e prims k t) (trans_fixes e prims k l')
  end.

(* :119-120 translate. *)
Definition translate (e : lenv) (prims : list (kername * positive)) (t : Term) : lexp :=
  trans e prims 0%N t.

(* :128-134 translate_entry. *)
Definition translate_entry (prims : list (kername * positive))
    (x : kername * envClass) (acc : lenv) : lenv :=
  match x with
  | (s, ecTrm t) => (s, translate acc prims t) :: acc
  | (_, ecTyp _) => acc
  end.

(* :144-148 translate_env_aux, translate_env. *)
Definition translate_env (prims : list (kername * positive)) (e : environ) : lenv :=
  fold_right (translate_entry prims) [] e.

(* :163-164 mkLets. *)
Definition mkLets (e : lenv) (t : lexp) : lexp :=
  fold_left (fun acc (x : kername * lexp) => Let_e (nNamed (fst x)) (snd x) acc) e t.

(* :167-172 translate_program. *)
Definition translate_program (prims : list (kername * positive)) (e : environ) (t : Term) : lexp :=
  let e' := translate_env prims e in
  mkLets e' (translate e' prims t).

(* ---- well-formed programs ---- *)

(* program.v:95-135 crctTerm and companions, without the checks on constructor
   arities and inductive packages (so fewer conditions than in the code).  The
   fixpoint bodies are abstractions, fixpoint indices are in range, constants
   are defined. *)
Fixpoint crct (p : environ) (n : nat) (t : Term) : Prop :=
  match t with
  | TRel m => m < n
  | TProof => True
  | TPrim _ => True
  | TLambda _ b => crct p (S n) b
  | TLetIn _ d b => crct p n d /\ crct p (S n) b
  | TApp f a => crct p n f /\ crct p n a
  | TConst nm => lookupDfn nm p <> None
  | TConstruct _ _ args => crcts p n args
  | TCase _ m bs => crct p n m /\ crctBs p n bs
  | TFix ds m => m < dlength ds /\ crctDs p (n + dlength ds) ds
  | TWrong _ => False
  end
with crcts (p : environ) (n : nat) (ts : Terms) : Prop :=
  match ts with tnil => True | tcons t ts => crct p n t /\ crcts p n ts end
with crctBs (p : environ) (n : nat) (bs : Brs) : Prop :=
  match bs with
  | bnil => True
  | bcons m t bs => crct p (List.length m + n) t /\ crctBs p n bs
  end
with crctDs (p : environ) (n : nat) (ds : Defs) : Prop :=
  match ds with
  | dnil => True
  | dcons _ b _ ds =>
    match b with TLambda _ _ => crct p n b | _ => False end /\ crctDs p n ds
  end.

(* program.v:120-126 crctEnv: names are fresh and every definition is closed in
   the definitions that follow it in the list. *)
Fixpoint crctEnv (p : environ) : Prop :=
  match p with
  | [] => True
  | (nm, ec) :: p =>
    crctEnv p /\ lookup nm p = None /\
    match ec with ecTrm t => crct p 0 t | ecTyp _ => True end
  end.

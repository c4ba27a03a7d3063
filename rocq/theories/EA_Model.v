(* The first translation of the compiler: terms produced by MetaRocq's erasure
   to the erased language LambdaBoxMut, theories/LambdaBoxMut/compile.v:241-273
   and 316-441.

   The erased terms (EAst.term), their declarations and their view by spines
   belong to MetaRocq, which is an external dependency of the code; they are
   transcribed here because the translation is a function on them.
   Simplifications: kernel names are strings; the three unboxed kinds of
   primitive literals are one constructor holding a [primitive_value]; an
   inductive declaration keeps its number of parameters, whether each body is
   propositional and the number of arguments of each constructor. *)
From Coq Require Import List Arith String Bool.
From Verif Require Import LB_Model LM_Model.
Import ListNotations.
Local Open Scope nat_scope.

(* EAst.def (used by compile.v:338-342, 401): a component of a fixpoint. *)
Record def (A : Type) : Type := mkdef { dname : name; dbody : A; rarg : nat }.
Arguments mkdef {A} _ _ _.
Arguments dname {A} _.
Arguments dbody {A} _.
Arguments rarg {A} _.

(* EAst.term (matched in compile.v:387-413), EPrimitive.prim_val (344-348). *)
Inductive term : Type :=
| tBox : term
| tRel : nat -> term
| tVar : string -> term
| tEvar : nat -> list term -> term
| tLambda : name -> term -> term
| tLetIn : name -> term -> term -> term
| tApp : term -> term -> term
| tConst : kername -> term
| tConstruct : inductive -> nat -> list term -> term
| tCase : inductive * nat -> term -> list (list name * term) -> term
| tProj : inductive * nat * nat -> term -> term
| tFix : list (def term) -> nat -> term
| tCoFix : list (def term) -> nat -> term
| tPrim : primitive_value -> term
| tArray : term -> list term -> term
| tLazy : term -> term
| tForce : term -> term.

(* EAst.global_decl (matched in compile.v:424-434), global_context. *)
Record minductive : Type := mkmind { ind_npars : nat; ind_bodies : list (bool * list nat) }.
Inductive global_decl : Type :=
| ConstantDecl : option term -> global_decl
| InductiveDecl : minductive -> global_decl.
Definition global_context := list (kername * global_decl).

(* compile.v:241-272 lift and companions: make room for one binder at [n]. *)
Fixpoint lift (n : nat) (t : Term) : Term :=
  match t with
  | TRel m => TRel (match Nat.compare m n with Lt => m | _ => S m end)
  | TProof => TProof
  | TLambda nm bod => TLambda nm (lift (S n) bod)
  | TLetIn nm df bod => TLetIn nm (lift n df) (lift (S n) bod)
  | TApp fn arg => TApp (lift n fn) (lift n arg)
  | TConstruct i x args => TConstruct i x (lifts n args)
  | TCase i mch brs => TCase i (lift n mch) (liftBs n brs)
  | TFix ds y => TFix (liftDs (n + dlength ds) ds) y
  | _ => t
  end
with lifts (n : nat) (ts : Terms) : Terms :=
  match ts with
  | tnil => tnil
  | tcons u us => tcons (lift n u) (lifts n us)
  end
with liftBs (n : nat) (ts : Brs) : Brs :=
  match ts with
  | bnil => bnil
  | bcons m b bs => bcons m (lift (List.length m + n) b) (liftBs n bs)
  end
with liftDs (n : nat) (ds : Defs) : Defs :=
  match ds with
  | dnil => dnil
  | dcons nm u j es => dcons nm (lift n u) j (liftDs n es)
  end.

(* compile.v:320-324 TmkApps. *)
Fixpoint TmkApps (u : Term) (v : Terms) : Term :=
  match v with
  | tnil => u
  | tcons t v => TmkApps (TApp u t) v
  end.

(* compile.v:326-330 list_terms. *)
Fixpoint list_terms (l : list Term) : Terms :=
  match l with [] => tnil | t :: ts => tcons t (list_terms ts) end.

(* compile.v:332-336 list_Brs. *)
Fixpoint list_Brs (l : list (list name * Term)) : Brs :=
  match l with [] => bnil | (x, t) :: ts => bcons x t (list_Brs ts) end.

(* compile.v:338-342 list_Defs. *)
Fixpoint list_Defs (l : list (def Term)) : Defs :=
  match l with
  | [] => dnil
  | t :: ts => dcons (dname t) (dbody t) (rarg t) (list_Defs ts)
  end.

(* compile.v:385-413 compile.  The code looks at the term through its spine
   view (head and list of all arguments); here the arguments met on the way to
   the head are collected, already translated, in [sp]. *)
Fixpoint compile_spine (t : term) (sp : Terms) {struct t} : Term :=
  match t with
  | tApp fn arg => compile_spine fn (tcons (compile_spine arg tnil) sp)
  | tRel n => TmkApps (TRel n) sp
  | tBox => TmkApps TProof sp
  | tLambda nm bod => TmkApps (TLambda nm (compile_spine bod tnil)) sp
  | tLetIn nm dfn bod =>
    TmkApps (TLetIn nm (compile_spine dfn tnil) (compile_spine bod tnil)) sp
  | tConst nm => TmkApps (TConst nm) sp
  | tConstruct i m args =>
    TmkApps (TConstruct i m (list_terms (map (fun x => compile_spine x tnil) args))) sp
  | tCase i mch brs =>
    let brs' := map (fun x => (List.rev (fst x), compile_spine (snd x) tnil)) brs in
    TmkApps (TCase (fst i) (compile_spine mch tnil) (list_Brs brs')) sp
  | tFix mfix idx =>
    let mfix' := map (fun d => mkdef (dname d) (compile_spine (dbody d) tnil) (rarg d)) mfix in
    TmkApps (TFix (list_Defs mfix') idx) sp
  | tProj p bod => TmkApps (TWrong "Proj") sp
  | tCoFix mfix idx => TmkApps (TWrong "TCofix") sp
  | tPrim v => TmkApps (TPrim v) sp
  | tArray _ _ => TmkApps (TWrong "unsupported primtive type") sp
  | tLazy t => TmkApps (TLambda nAnon (lift 0 (compile_spine t tnil))) sp
  | tForce t => TmkApps (TmkApps (compile_spine t tnil) (tcons TProof tnil)) sp
  | tVar _ => TmkApps (TWrong "Var") sp
  | tEvar _ _ => TmkApps (TWrong "Evar") sp
  end.
(* compile.v:385 compile. *)
Definition compile (t : term) : Term := compile_spine t tnil.

(* compile.v:424-434 compile_global_decl.  Inductive packages are not kept by
   the model of environments; ecAx is ecTyp with an empty package
   (AstCommon.v:158). *)
Definition compile_global_decl (d : global_decl) : envClass :=
  match d with
  | InductiveDecl _ => ecTyp 0
  | ConstantDecl (Some t) => ecTrm (compile t)
  | ConstantDecl None => ecTyp 0
  end.

(* compile.v:436-441 compile_ctx. *)
Fixpoint compile_ctx (t : global_context) : environ :=
  match t with
  | [] => []
  | (n, decl) :: rest => (n, compile_global_decl decl) :: compile_ctx rest
  end.

(** * What the compiled compiler expects

    Programs of MetaRocq, down to the parts that contain no set; the two representations
    differ only in the boxes of sets: extraction to OCaml drops a constructor with one
    argument besides proofs, the compiled code keeps it, with a word for the proof. *)
From Coq Require Import ZArith List Bool.
From Verif Require Import QF_Model.
Import ListNotations.

Inductive sort : Set := sProp | sSProp | sType (nonempty_set : obj).

(** fields of type [obj] contain no sets and look the same on both sides *)
Inductive term : Set :=
| tRel (n : obj) | tVar (x : obj) | tEvar (k : obj) (l : list term) | tSort (s : sort)
| tCast (t : term) (k : obj) (t' : term) | tProd (na : obj) (a b : term) | tLambda (na : obj) (a b : term)
| tLetIn (na : obj) (b t u : term) | tApp (f : term) (l : list term)
| tConst (c u : obj) | tInd (i u : obj) | tConstruct (i k u : obj)
| tCase (ci : obj) (puinst : obj) (pparams : list term) (pcontext : obj) (preturn : term) (c : term)
    (brs : list (obj * term))
| tProj (p : obj) (t : term) | tFix (m : list (obj * term * term * obj)) (i : obj)
| tCoFix (m : list (obj * term * term * obj)) (i : obj)
| tInt (i : obj) | tFloat (f : obj) | tString (s : obj) | tArray (u : obj) (v : list term) (def ty : term).

Inductive universes_decl : Set := Monomorphic | Polymorphic (names constraints : obj).

Record ctx_decl : Set := { cd_name : obj; cd_body : option term; cd_type : term }.

Record constructor : Set :=
  { k_name : obj; k_args : list ctx_decl; k_indices : list term; k_type : term; k_arity : obj }.

Record projection : Set := { p_name : obj; p_relevance : obj; p_type : term }.

Record ind_body : Set :=
  { i_name : obj; i_indices : list ctx_decl; i_sort : sort; i_type : term; i_kelim : obj;
    i_ctors : list constructor; i_projs : list projection; i_relevance : obj }.

Inductive decl : Set :=
| Constant (type : term) (body : option term) (u : universes_decl) (relevance : obj)
| Inductive_ (finite npars : obj) (params : list ctx_decl) (bodies : list ind_body) (u : universes_decl) (variance : obj).

Record program : Set :=
  { g_levels : obj; g_constraints : obj; g_decls : list (obj * decl); g_retro : obj; g_main : term }.

Section REP.

(** whether a record of a value and a proof is a block *)
Variable boxed : bool.

Definition record (x : obj) : obj := if boxed then B 0 [x; I 1] else x.

Fixpoint rlist (l : list obj) : obj := match l with [] => I 0 | x :: l => B 0 [x; rlist l] end.

Definition roption (x : option obj) : obj := match x with None => I 0 | Some x => B 0 [x] end.

(** a set is a tree with a proof that it is ordered; a nonempty set is a set with a proof *)
Definition rset (x : obj) : obj := record x.

Definition rsort (s : sort) : obj :=
  match s with sProp => I 0 | sSProp => I 1 | sType x => B 0 [record (rset x)] end.

Fixpoint rterm (t : term) : obj :=
  match t with
  | tRel n => B 0 [n]
  | tVar x => B 1 [x]
  | tEvar k l => B 2 [k; rlist (map rterm l)]
  | tSort s => B 3 [rsort s]
  | tCast t k t' => B 4 [rterm t; k; rterm t']
  | tProd na a b => B 5 [na; rterm a; rterm b]
  | tLambda na a b => B 6 [na; rterm a; rterm b]
  | tLetIn na b t u => B 7 [na; rterm b; rterm t; rterm u]
  | tApp f l => B 8 [rterm f; rlist (map rterm l)]
  | tConst c u => B 9 [c; u]
  | tInd i u => B 10 [i; u]
  | tConstruct i k u => B 11 [i; k; u]
  | tCase ci pu ps pc r c brs =>
      B 12 [ci; B 0 [pu; rlist (map rterm ps); pc; rterm r]; rterm c;
            rlist (map (fun b => B 0 [fst b; rterm (snd b)]) brs)]
  | tProj p t => B 13 [p; rterm t]
  | tFix m i => B 14 [rlist (map (fun '(n, t, b, r) => B 0 [n; rterm t; rterm b; r]) m); i]
  | tCoFix m i => B 15 [rlist (map (fun '(n, t, b, r) => B 0 [n; rterm t; rterm b; r]) m); i]
  | tInt i => B 16 [i]
  | tFloat f => B 17 [f]
  | tString s => B 18 [s]
  | tArray u v d t => B 19 [u; rlist (map rterm v); rterm d; rterm t]
  end.

Definition rctx_decl (d : ctx_decl) : obj :=
  B 0 [cd_name d; roption (option_map rterm (cd_body d)); rterm (cd_type d)].

Definition rctx (l : list ctx_decl) : obj := rlist (map rctx_decl l).

Definition runiverses (u : universes_decl) : obj :=
  match u with Monomorphic => I 0 | Polymorphic names cs => B 0 [B 0 [names; rset cs]] end.

Definition rconstructor (c : constructor) : obj :=
  B 0 [k_name c; rctx (k_args c); rlist (map rterm (k_indices c)); rterm (k_type c); k_arity c].

Definition rprojection (p : projection) : obj := B 0 [p_name p; p_relevance p; rterm (p_type p)].

Definition rind_body (i : ind_body) : obj :=
  B 0 [i_name i; rctx (i_indices i); rsort (i_sort i); rterm (i_type i); i_kelim i;
       rlist (map rconstructor (i_ctors i)); rlist (map rprojection (i_projs i)); i_relevance i].

Definition rdecl (d : decl) : obj :=
  match d with
  | Constant t b u r => B 0 [B 0 [rterm t; roption (option_map rterm b); runiverses u; r]]
  | Inductive_ f n ps bs u v => B 1 [B 0 [f; n; rctx ps; rlist (map rind_body bs); runiverses u; v]]
  end.

Definition rprogram (p : program) : obj :=
  B 0 [B 0 [B 0 [rset (g_levels p); rset (g_constraints p)];
            rlist (map (fun d => B 0 [fst d; rdecl (snd d)]) (g_decls p)); g_retro p];
       rterm (g_main p)].

End REP.

(** what extracted OCaml code builds, and what code compiled by CertiRocq works on *)
Definition in_ocaml : program -> obj := rprogram false.
Definition in_compiled : program -> obj := rprogram true.

(** no primitive literal anywhere in a term *)
Fixpoint literal_free (t : term) : bool :=
  match t with
  | tInt _ | tFloat _ | tString _ => false
  | tRel _ | tVar _ | tSort _ | tConst _ _ | tInd _ _ | tConstruct _ _ _ => true
  | tEvar _ l => forallb literal_free l
  | tCast a _ b | tProd _ a b | tLambda _ a b => literal_free a && literal_free b
  | tLetIn _ a b c => literal_free a && literal_free b && literal_free c
  | tApp f l => literal_free f && forallb literal_free l
  | tCase _ _ ps _ r c brs =>
      forallb literal_free ps && literal_free r && literal_free c && forallb (fun b => literal_free (snd b)) brs
  | tProj _ t => literal_free t
  | tFix m _ | tCoFix m _ => forallb (fun '(_, t, b, _) => literal_free t && literal_free b) m
  | tArray _ v d t => forallb literal_free v && literal_free d && literal_free t
  end.

(** all terms of a program *)
Definition opt_terms (b : option term) : list term := match b with Some t => [t] | None => [] end.
Definition ctx_terms (l : list ctx_decl) : list term :=
  flat_map (fun d => cd_type d :: opt_terms (cd_body d)) l.
Definition ind_terms (i : ind_body) : list term :=
  ctx_terms (i_indices i) ++ [i_type i] ++
  flat_map (fun c => ctx_terms (k_args c) ++ k_indices c ++ [k_type c]) (i_ctors i) ++ map p_type (i_projs i).
Definition decl_terms (d : decl) : list term :=
  match d with
  | Constant t b _ _ => t :: opt_terms b
  | Inductive_ _ _ ps bs _ _ => ctx_terms ps ++ flat_map ind_terms bs
  end.
Definition program_terms (p : program) : list term :=
  g_main p :: flat_map (fun d => decl_terms (snd d)) (g_decls p).

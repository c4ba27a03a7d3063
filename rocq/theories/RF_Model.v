(** * Reading a result back as a Rocq term ([CertiRocq Eval])

    Source: plugin/certirocq.ml:649-800 (and cplugin/certirocq.ml, which differs
    in not accepting primitive strings) with runtime/get_ordinal.c:9-12.

    Simplified:
    - terms are the part of [Constr.t] that can occur in the types and results
      below; universe instances, sorts, casts, [match] and [fix] are left out;
    - types are in weak head normal form, so that [find_inductive] and [whd_all]
      (plugin/certirocq.ml:679-692) only look at the head;
    - a word is that of the model of generated C ([cval]); words are read through
      its heap;
    - debug messages and the check for interrupts are left out. *)
From Coq Require Import ZArith NArith List Lia Bool Arith Ascii String.
From Verif Require Import ANF_Syntax CG_Clight.
From Verif Require LB_Model.
Import ListNotations.
Local Open Scope nat_scope.

(** Kernames.inductive: as in the model of the front end *)
Definition inductive : Type := LB_Model.inductive.

(** primitive types: the tests of plugin/certirocq.ml:784-793 *)
Inductive prim : Set := PInt | PFloat | PString | PArray.

(** Terms with de Bruijn indices.  [cLit] is [mkInt], [mkFloat] or [mkString]
    (plugin/certirocq.ml:787-791) of the word it was given. *)
Inductive cterm : Type :=
| cRel (n : nat)
| cInd (i : inductive)
| cConstruct (i : inductive) (k : nat)
| cPrim (p : prim)
| cLit (p : prim) (w : cval)
| cConst (c : string)
| cLambda (ty body : cterm)
| cProd (ty body : cterm)
| cApp (f : cterm) (args : list cterm).

(** Term.applistc (Rocq's kernel): nothing is applied to no arguments *)
Definition applist (f : cterm) (args : list cterm) : cterm :=
  match args with [] => f | _ => cApp f args end.

(** EConstr.decompose_app, used at plugin/certirocq.ml:684 and in [find_inductive] *)
Definition decompose (t : cterm) : cterm * list cterm :=
  match t with cApp f l => (f, l) | _ => (t, []) end.

(** Vars.lift of Rocq's kernel: [n] more binders, [k] of them already passed *)
Fixpoint lift (n k : nat) (t : cterm) : cterm :=
  match t with
  | cRel m => if m <? k then cRel m else cRel (m + n)
  | cLambda a b => cLambda (lift n k a) (lift n (S k) b)
  | cProd a b => cProd (lift n k a) (lift n (S k) b)
  | cApp f l => cApp (lift n k f) (map (lift n k) l)
  | _ => t
  end.

(** Vars.substl of Rocq's kernel: the first of [l] for the innermost variable *)
Fixpoint substl (l : list cterm) (k : nat) (t : cterm) : cterm :=
  match t with
  | cRel m => if m <? k then cRel m
              else match nth_error l (m - k) with Some u => lift k 0 u | None => cRel (m - List.length l) end
  | cLambda a b => cLambda (substl l k a) (substl l (S k) b)
  | cProd a b => cProd (substl l k a) (substl l (S k) b)
  | cApp f us => cApp (substl l k f) (map (substl l k) us)
  | _ => t
  end.

(** Context.Rel.Declaration.t: an assumption, or a definition [let x : ty := body in] *)
Inductive decl : Type :=
| Assum (ty : cterm)
| Def (body ty : cterm).

(** A context, outermost declaration first (Rocq's [rel_context] has the
    innermost first).  Substitution in a context, as Vars.substl_rel_context. *)
Fixpoint subst_ctx (l : list cterm) (k : nat) (ds : list decl) : list decl :=
  match ds with
  | [] => []
  | Assum t :: r => Assum (substl l k t) :: subst_ctx l (S k) r
  | Def b t :: r => Def (substl l k b) (substl l k t) :: subst_ctx l (S k) r
  end.

(** The same for the types of assumptions alone. *)
Fixpoint subst_tys (l : list cterm) (k : nat) (ts : list cterm) : list cterm :=
  match ts with [] => [] | t :: r => substl l k t :: subst_tys l (S k) r end.

(** Vars.smash_rel_context (used at plugin/certirocq.ml:765): definitions are
    substituted in what follows; the types of the assumptions remain. *)
Fixpoint smash (ds : list decl) : list cterm :=
  match ds with
  | [] => []
  | Assum t :: r => t :: smash r
  | Def b _ :: r => subst_tys [b] 0 (smash r)
  end.

(** A constructor as declared (Declarations.one_inductive_body, and
    Inductiveops.constructor_summary): the context of its arguments, under the
    parameters, and the indices of the type it builds. *)
Record ctor : Type := mkctor { c_args : list decl; c_indices : list cterm }.

(** A type as declared: number of parameters, whether it is a proposition, its
    constructors. *)
Record idecl : Type := mkidecl { i_params : nat; i_prop : bool; i_ctors : list ctor }.

(** Environ.env, the inductive types of it *)
Definition genv : Type := inductive -> option idecl.

(** plugin/certirocq.ml:104-110: registered orders of constructors.  The name of
    the foreign type is left out. *)
Definition mapping : Type := list (inductive * list nat).

(** plugin/certirocq.ml:649-651 *)
Inductive reifyable : Type :=
| IsInductive (i : inductive) (args : list cterm)
| IsPrimitive (p : prim).

(** what a run ends with: a term, the anomaly of [ill_formed], an error message
    to the user, an OCaml exception, undefined behaviour, or not finished *)
Inductive answer (A : Type) : Type :=
| Done (x : A) | Ill_formed | User_error | Exception | Crash | Unfinished.
Arguments Done {A}. Arguments Ill_formed {A}. Arguments User_error {A}.
Arguments Exception {A}. Arguments Crash {A}. Arguments Unfinished {A}.

(** sequencing of the above (OCaml's evaluation order) *)
Definition andthen {A B} (a : answer A) (f : A -> answer B) : answer B :=
  match a with
  | Done x => f x | Ill_formed => Ill_formed | User_error => User_error
  | Exception => Exception | Crash => Crash | Unfinished => Unfinished
  end.

(** plugin/certirocq.ml:679-692 *)
Definition check_reifyable (ty : cterm) : answer reifyable :=
  match decompose ty with
  | (cInd i, args) => Done (IsInductive i args)
  | (cPrim p, _) => Done (IsPrimitive p)
  | (cRel _, _) => Exception   (* the variable is not in [env]: [Not_found] *)
  | _ => User_error
  end.

(** CList.is_empty of [cs_args] (plugin/certirocq.ml:664, 674) *)
Definition is_empty (c : ctor) : bool := match c_args c with [] => true | _ => false end.

(** plugin/certirocq.ml:659-667: [i] is the position, [const] the constructors passed *)
Fixpoint find_nth_constant_from (n : Z) (i : nat) (const : Z) (ar : list ctor) : option nat :=
  match ar with
  | [] => None
  | c :: ar' =>
      if is_empty c then if (const =? n)%Z then Some i else find_nth_constant_from n (S i) (const + 1) ar'
      else find_nth_constant_from n (S i) const ar'
  end.

(** plugin/certirocq.ml:659-667 *)
Definition find_nth_constant (n : Z) (ar : list ctor) : option nat := find_nth_constant_from n 0 0 ar.

(** plugin/certirocq.ml:669-677 *)
Fixpoint find_nth_non_constant_from (n : Z) (i : nat) (nconst : Z) (ar : list ctor) : option nat :=
  match ar with
  | [] => None
  | c :: ar' =>
      if negb (is_empty c) then if (nconst =? n)%Z then Some i else find_nth_non_constant_from n (S i) (nconst + 1) ar'
      else find_nth_non_constant_from n (S i) nconst ar'
  end.

(** plugin/certirocq.ml:669-677 *)
Definition find_nth_non_constant (n : Z) (ar : list ctor) : option nat := find_nth_non_constant_from n 0 0 ar.

(** the entry for a type: [CList.find_map_exn] with [eq_inductive_def]
    (plugin/certirocq.ml:724-731, 735-742) *)
Fixpoint entry (hd : inductive) (m : mapping) : option (list nat) :=
  match m with
  | [] => None
  | (i, tags) :: m' => if LB_Model.ind_eqb i hd then Some tags else entry hd m'
  end.

(** [cstrs.(i)] for all [i]: an index out of bounds is an exception *)
Fixpoint pick {A} (l : list A) (tags : list nat) : answer (list A) :=
  match tags with
  | [] => Done []
  | i :: tags' => match nth_error l i with
                  | Some x => andthen (pick l tags') (fun xs => Done (x :: xs))
                  | None => Exception
                  end
  end.

(** plugin/certirocq.ml:723-732 *)
Definition apply_reordering {A} (hd : inductive) (m : mapping) (cstrs : list A) : answer (list A) :=
  match entry hd m with Some tags => pick cstrs tags | None => Done cstrs end.

(** CList.index0 of Rocq's library *)
Fixpoint index0 (x : nat) (l : list nat) : option nat :=
  match l with
  | [] => None
  | y :: l' => if x =? y then Some 0 else option_map S (index0 x l')
  end.

(** plugin/certirocq.ml:734-743: [index0] raises [Not_found], which is caught *)
Definition find_reverse_mapping (hd : inductive) (m : mapping) (cstr : nat) : nat :=
  match entry hd m with
  | Some tags => match index0 cstr tags with Some j => j | None => cstr end
  | None => cstr
  end.

(** Inductiveops.get_constructors (plugin/certirocq.ml:757): the parameters of
    the type for those of the declaration *)
Definition get_constructors (d : idecl) (params : list cterm) : list ctor :=
  map (fun c => mkctor (subst_ctx (rev params) 0 (c_args c)) (map (substl (rev params) (List.length (c_args c))) (c_indices c)))
      (i_ctors d).

(** runtime/get_ordinal.c:9-12 *)
Definition get_boxed_ordinal (h : Z -> option cval) (p : Z) : answer Z :=
  match h (p - 1)%Z with Some (VZ hdr) => Done (Z.land hdr 255) | _ => Crash end.

(** Obj.field v 0, ..., Obj.field v (n - 1) (plugin/certirocq.ml:766) *)
Fixpoint fields (h : Z -> option cval) (p : Z) (n : nat) : answer (list cval) :=
  match n with
  | O => Done []
  | S n' => match h p with
            | Some w => andthen (fields h (p + 1)%Z n') (fun ws => Done (w :: ws))
            | None => Crash
            end
  end.

(** List.map2 (plugin/certirocq.ml:767-770); the lists have the same length *)
Fixpoint map2 {A B C} (f : A -> B -> answer C) (l : list A) (l' : list B) : answer (list C) :=
  match l, l' with
  | [], [] => Done []
  | x :: r, y :: r' => andthen (f x y) (fun z => andthen (map2 f r r') (fun zs => Done (z :: zs)))
  | _, _ => Exception
  end.

(** plugin/certirocq.ml:745-795, [aux]; [strings] is whether primitive strings
    are accepted (true in plugin/certirocq.ml, false in cplugin/certirocq.ml) *)
Fixpoint reify (fuel : nat) (strings : bool) (E : genv) (im : mapping) (h : Z -> option cval) (ty : reifyable) (v : cval) : answer cterm :=
  match fuel with
  | O => Unfinished
  | S fuel =>
    match ty with
    | IsInductive hd args =>
        match E hd with
        | None => Exception
        | Some d =>
            let npars := i_params d in
            if List.length args <? npars then Exception   (* CList.chop *)
            else
            let params := firstn npars args in
            andthen (apply_reordering hd im (get_constructors d params)) (fun cstrs =>
            match v with
            | VP BHeap p =>
                andthen (get_boxed_ordinal h p) (fun ord =>
                match find_nth_non_constant ord cstrs with
                | None => Ill_formed
                | Some coqidx =>
                    match nth_error cstrs coqidx with
                    | None => Exception
                    | Some cstr =>
                        let coqidx := find_reverse_mapping hd im coqidx in
                        let ctx := smash (c_args cstr) in
                        andthen (fields h p (List.length ctx)) (fun vargs =>
                        andthen (map2 (fun argty v => andthen (check_reifyable argty) (fun t => reify fuel strings E im h t v)) ctx vargs) (fun args' =>
                        Done (applist (cConstruct hd coqidx) (params ++ args'))))
                    end
                end)
            | VZ z =>
                if Z.odd z then
                  match find_nth_constant (Z.shiftr z 1) cstrs with
                  | None => Ill_formed
                  | Some coqidx =>
                      let coqidx := find_reverse_mapping hd im coqidx in
                      Done (applist (cConstruct hd coqidx) params)
                  end
                else Crash   (* read as a block *)
            | _ => Crash   (* no value *)
            end)
        end
    | IsPrimitive PArray => User_error
    | IsPrimitive PString => if strings then Done (cLit PString v) else User_error
    | IsPrimitive p => Done (cLit p v)
    end
  end.

(** plugin/certirocq.ml:797-800 and its callers: the type is checked before the
    program is run *)
Definition reify_result (fuel : nat) (strings : bool) (E : genv) (im : mapping) (h : Z -> option cval) (ty : cterm) (v : cval) : answer cterm :=
  andthen (check_reifyable ty) (fun t => reify fuel strings E im h t v).

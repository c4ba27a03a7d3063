(** * Uncurrying

    Source: theories/LambdaANF/uncurry_proto.v (the pass the pipeline runs,
    theories/LambdaANF/toplevel.v:172), theories/LambdaANF/Prototype.v,
    theories/LambdaANF/proto_util.v.

    The repository derives the traversal from a guarded rewrite rule with a
    generic top-down rewriter (Prototype.v:1829-1881): at every bundle of
    functions try the rules; when one fires, keep the wrapper as it is and go on
    with the rest, otherwise go on with the parts from left to right.  Here the
    resulting function is written out.  It recurses on the size of the term
    there, on explicit fuel here (C55_total: the size is enough). *)
From Coq Require Import List Arith NArith PArith Bool String.
From Verif Require Import ANF_Syntax Comp_Model.
Import ListNotations.

(** theories/LambdaANF/identifiers.v:5447-5489 *)
Fixpoint occurs_in_vars (k : var) (xs : list var) : bool :=
  match xs with
  | [] => false
  | x :: xs1 => Pos.eqb k x || occurs_in_vars k xs1
  end.

Fixpoint occurs_in_exp (k : var) (e : exp) : bool :=
  match e with
  | Econstr z _ xs e1 => Pos.eqb z k || occurs_in_vars k xs || occurs_in_exp k e1
  | Ecase x arms =>
      Pos.eqb k x ||
      (fix go (arms : list (ctor_tag * exp)) : bool :=
         match arms with
         | [] => false
         | (_, e) :: arms1 => occurs_in_exp k e || go arms1
         end) arms
  | Eproj z _ _ x e1 => Pos.eqb z k || Pos.eqb k x || occurs_in_exp k e1
  | Eletapp z f _ xs e1 => Pos.eqb z k || Pos.eqb f k || occurs_in_vars k xs || occurs_in_exp k e1
  | Efun fds e => occurs_in_fundefs k fds || occurs_in_exp k e
  | Eapp x _ xs => Pos.eqb k x || occurs_in_vars k xs
  | Eprim_val z _ e1 => Pos.eqb z k || occurs_in_exp k e1
  | Eprim z _ xs e1 => Pos.eqb z k || occurs_in_vars k xs || occurs_in_exp k e1
  | Ehalt x => Pos.eqb x k
  end
with occurs_in_fundefs (k : var) (fds : fundefs) : bool :=
  match fds with
  | Fnil => false
  | Fcons z _ zs e fds1 => Pos.eqb z k || occurs_in_vars k zs || occurs_in_exp k e || occurs_in_fundefs k fds1
  end.

(** theories/LambdaANF/proto_util.v:50-54 *)
Fixpoint gensyms {A} (x : var) (xs : list A) : var * list var :=
  match xs with
  | [] => (x, [])
  | _ :: xs => let '(x', xs') := gensyms (x + 1)%positive xs in (x', x :: xs')
  end.

(** theories/LambdaANF/uncurry_proto.v:25-36 *)
Definition set_name (old_var new_var : var) (suff : string) (c : comp_data) : comp_data :=
  let 'mkCompData n c i f e fenv names imap log := c in
  let names' := add_entry names new_var old_var suff in
  mkCompData (1 + Pos.max old_var new_var)%positive c i f e fenv names' imap log.

Definition set_names_lst (olds news : list var) (suff : string) (c : comp_data) : comp_data :=
  fold_right (fun '(old, new) c => set_name old new suff c) c (combine olds news).

(** theories/LambdaANF/uncurry_proto.v:43-58 (St, arity_map, local_map, S_misc);
    the last field is the counter of the rewriter ([I_S_fresh]) *)
Record ust := mkU {
  clicked : bool;               (* has a rewrite happened *)
  tag_of_arity : tmap fun_tag;  (* arity + 1 to tag *)
  done : tmap bool;             (* inner functions already uncurried *)
  max_args : nat;
  marks : tmap nat;             (* 1: uncurried function, 2: its inner function *)
  cdata : comp_data;
  nextx : var
}.

(** theories/LambdaANF/uncurry_proto.v:61-74 *)
Definition get_fun_tag (n : N) (s : ust) : fun_tag * ust :=
  let n' := N.succ_pos n in
  match get n' (tag_of_arity s) with
  | Some ft => (ft, s)
  | None =>
      let '(mft, (c, _)) := get_ftag n tt (cdata s, tt) in
      match mft with
      | Err _ => (1%positive, s)
      | Ret ft => (ft, mkU (clicked s) (set n' ft (tag_of_arity s)) (done s) (max_args s) (marks s) c (nextx s))
      end
  end.

(** theories/LambdaANF/uncurry_proto.v:153-168, with the new counter *)
Definition metadata_update (f g f1 : var) (numargs : nat) (fv gv fv1 gv1 : list var) (next : var) (s : ust) : ust :=
  mkU true (tag_of_arity s) (set g true (done s))
    (Nat.max (max_args s) numargs) (set f 1 (set g 2 (marks s)))
    (set_name f f1 "_uncurried" (set_names_lst fv fv1 "" (set_names_lst gv gv1 "" (cdata s))))
    next.

(** theories/LambdaANF/uncurry_proto.v:104-106, 135-137 (the right-hand sides:
    [pre] is [[k]] or empty), 201-213, 231-233: the wrapper, waiting for the rest
    of the bundle; what the traversal goes on with; the new state *)
Definition fire (f : var) (ft : fun_tag) (pre fv : list var) (g : var) (gt : fun_tag) (gv : list var) (ge tl : exp)
    (fds : fundefs) (s : ust) : (fundefs -> fundefs) * fundefs * ust :=
  let numargs := List.length fv + List.length gv in
  let '(ft1, s1) := get_fun_tag (N.of_nat numargs) s in
  let '(x0, gv1) := gensyms (nextx s1) gv in
  let '(x1, fv1) := gensyms x0 fv in
  let f1 := x1 in
  (Fcons f ft (pre ++ fv1) (Efun (Fcons g gt gv1 (Eapp f1 ft1 (gv1 ++ fv1)) Fnil) tl),
   Fcons f1 ft1 (gv ++ fv) ge fds,
   metadata_update f g f1 numargs fv gv fv1 gv1 (x1 + 1)%positive s1).

Definition marked (g : var) (s : ust) : bool :=
  match get g (done s) with Some true => true | _ => false end.

(** theories/LambdaANF/uncurry_proto.v:186-199: the rule for code in
    continuation-passing style *)
Definition try_cps (f : var) (ft : fun_tag) (xs : list var) (e : exp) (fds : fundefs) (s : ust) :=
  match xs, e with
  | k :: fv, Efun (Fcons g gt gv ge Fnil) (Eapp k' kt [g']) =>
      if Pos.eqb k k' && Pos.eqb g g' && negb (marked g s) && negb (occurs_in_exp g ge) && negb (occurs_in_exp k ge)
      then Some (fire f ft [k] fv g gt gv ge (Eapp k kt [g]) fds s) else None
  | _, _ => None
  end.

(** theories/LambdaANF/uncurry_proto.v:251-264: the rule for direct style *)
Definition try_anf (f : var) (ft : fun_tag) (xs : list var) (e : exp) (fds : fundefs) (s : ust) :=
  match e with
  | Efun (Fcons g gt gv ge Fnil) (Ehalt g') =>
      if Pos.eqb g g' && negb (marked g s) && negb (occurs_in_exp g ge)
      then Some (fire f ft [] xs g gt gv ge (Ehalt g) fds s) else None
  | _ => None
  end.

(** Both rules are tried in order; each is guarded by the mode
    (uncurry_proto.v:192, 257). *)
Definition try_rules (cps : bool) := if cps then try_cps else try_anf.

Fixpoint uncurry_exp (cps : bool) (n : nat) (e : exp) (s : ust) {struct n} : option (exp * ust) :=
  match n with
  | O => None
  | S n =>
      match e with
      | Econstr x t ys e =>
          match uncurry_exp cps n e s with Some (e', s') => Some (Econstr x t ys e', s') | None => None end
      | Ecase x arms =>
          match (fix go (arms : list (ctor_tag * exp)) (s : ust) : option (list (ctor_tag * exp) * ust) :=
                   match arms with
                   | [] => Some ([], s)
                   | (c, e) :: arms =>
                       match uncurry_exp cps n e s with
                       | Some (e', s1) =>
                           match go arms s1 with Some (arms', s2) => Some ((c, e') :: arms', s2) | None => None end
                       | None => None
                       end
                   end) arms s with
          | Some (arms', s') => Some (Ecase x arms', s')
          | None => None
          end
      | Eproj x t i y e =>
          match uncurry_exp cps n e s with Some (e', s') => Some (Eproj x t i y e', s') | None => None end
      | Eletapp x f t ys e =>
          match uncurry_exp cps n e s with Some (e', s') => Some (Eletapp x f t ys e', s') | None => None end
      | Efun fds e =>
          match uncurry_fundefs cps n fds s with
          | Some (fds', s1) =>
              match uncurry_exp cps n e s1 with Some (e', s2) => Some (Efun fds' e', s2) | None => None end
          | None => None
          end
      | Eapp f t ys => Some (Eapp f t ys, s)
      | Eprim_val x p e =>
          match uncurry_exp cps n e s with Some (e', s') => Some (Eprim_val x p e', s') | None => None end
      | Eprim x p ys e =>
          match uncurry_exp cps n e s with Some (e', s') => Some (Eprim x p ys e', s') | None => None end
      | Ehalt x => Some (Ehalt x, s)
      end
  end
with uncurry_fundefs (cps : bool) (n : nat) (fds : fundefs) (s : ust) {struct n} : option (fundefs * ust) :=
  match n with
  | O => None
  | S n =>
      match fds with
      | Fnil => Some (Fnil, s)
      | Fcons f ft xs e fds =>
          match try_rules cps f ft xs e fds s with
          | Some (wrap, fds', s1) =>
              match uncurry_fundefs cps n fds' s1 with Some (r, s2) => Some (wrap r, s2) | None => None end
          | None =>
              match uncurry_exp cps n e s with
              | Some (e', s1) =>
                  match uncurry_fundefs cps n fds s1 with
                  | Some (fds', s2) => Some (Fcons f ft xs e' fds', s2)
                  | None => None
                  end
              | None => None
              end
          end
      end
  end.

(** theories/LambdaANF/Prototype.v:1870-1881, uncurry_proto.v:171: the measure
    (here: the number of constructors) *)
Fixpoint esize (e : exp) : nat :=
  match e with
  | Econstr _ _ _ e | Eproj _ _ _ _ e | Eletapp _ _ _ _ e | Eprim_val _ _ e | Eprim _ _ _ e => S (esize e)
  | Ecase _ arms => S (fold_right (fun p n => esize (snd p) + n) 0 arms)
  | Efun fds e => S (fsize fds + esize e)
  | Eapp _ _ _ | Ehalt _ => 1
  end
with fsize (fds : fundefs) : nat :=
  match fds with
  | Fcons _ _ _ e fds => S (esize e + fsize fds)
  | Fnil => 1
  end.

Definition init (c : comp_data) : ust := mkU false [] [] 0 [] c (next_var c).

(** theories/LambdaANF/uncurry_proto.v:353-368 *)
Definition uncurry_proto_top (cps : bool) (e : exp) (c : comp_data) : error exp * comp_data :=
  if Pos.ltb (max_var e 1) (next_var c) then
    match uncurry_exp cps (esize e) e (init c) with
    | Some (e', s) =>
        (Ret e',
         let c' := cdata s in
         mkCompData (nextx s) (nect_ctor_tag c') (next_ind_tag c') (next_fun_tag c') (cenv c') (fenv c') (nenv c') (marks s) (log c'))
    | None => (Err "fuel", c)
    end
  else (Err "uncurry_top: max_var computation failed", c).

(** * Dead-parameter elimination

    Source: theories/LambdaANF/dead_param_elim.v.

    Sets are lists used up to membership.  The compilation state
    [comp_data] (theories/LambdaANF/state.v:24-36) is reduced to the two
    fields the pass reads or writes: the next function tag and the table of
    arities of function tags.  The elimination functions run in the error and
    state monad but only use [ret] and [bind], so they are plain functions
    here; [find_live] always answers [Ret]. *)
From Coq Require Import ZArith NArith List Lia Bool.
From Verif Require Import ANF_Syntax.
Import ListNotations.

(** dead_param_elim.v:20 *)
Definition live_fun : Type := tmap (list bool).
Definition get_fun_vars (m : live_fun) (f : var) := get f m.
Definition set_fun_vars (m : live_fun) (f : var) (b : list bool) := set f b m.

(** [PTree.remove] *)
Definition remove {A} (x : positive) (m : tmap A) : tmap A :=
  filter (fun p => if Pos.eq_dec x (fst p) then false else true) m.

(** dead_param_elim.v:28-35 *)
Fixpoint live_args {A} (ys : list A) (bs : list bool) : list A :=
  match bs, ys with
  | [], [] => ys
  | b :: bs', y :: ys' => if b then y :: live_args ys' bs' else live_args ys' bs'
  | _, _ => ys
  end.

(** dead_param_elim.v:38-42 *)
Fixpoint get_bool_false {A} (ys : list A) : list bool :=
  match ys with
  | y :: ys' => false :: get_bool_false ys'
  | [] => []
  end.

(** dead_param_elim.v:51-55 *)
Fixpoint init_live_fun_aux (m : live_fun) (B : fundefs) : live_fun :=
  match B with
  | Fcons f ft xs e B' => init_live_fun_aux (set_fun_vars m f (get_bool_false xs)) B'
  | Fnil => m
  end.

(** dead_param_elim.v:58 *)
Definition init_live_fun (B : fundefs) : live_fun := init_live_fun_aux [] B.

(** dead_param_elim.v:62-66 *)
Definition remove_escaping (L : live_fun) (f : var) : live_fun :=
  match get_fun_vars L f with
  | Some bs => remove f L
  | None => L
  end.

(** dead_param_elim.v:68-69 *)
Definition remove_escapings (L : live_fun) (fs : list var) : live_fun :=
  fold_left remove_escaping fs L.

(** dead_param_elim.v:71-90 *)
Fixpoint escaping_fun_exp (e : exp) (L : live_fun) : live_fun :=
  match e with
  | Eapp f t ys => remove_escapings L ys
  | Econstr x t ys e' => escaping_fun_exp e' (remove_escapings L ys)
  | Eproj x t n y e' => escaping_fun_exp e' (remove_escaping L y)
  | Eletapp x f ft ys e' => escaping_fun_exp e' (remove_escapings L ys)
  | Ecase x P => fold_left (fun L p => escaping_fun_exp (snd p) L) P L
  | Ehalt x => remove_escaping L x
  | Efun fl e' => escaping_fun_exp e' (escaping_fun_fundefs fl L)
  | Eprim_val x p e' => escaping_fun_exp e' L
  | Eprim x fs ys e' => escaping_fun_exp e' (remove_escapings L ys)
  end
with escaping_fun_fundefs (B : fundefs) (L : live_fun) : live_fun :=
  match B with
  | Fcons f ft xs e B' =>
      let L' := escaping_fun_exp e L in escaping_fun_fundefs B' L'
  | Fnil => L
  end.

(** dead_param_elim.v:94-100 *)
Definition add_fun_vars (L : live_fun) (f : var) (xs : list var) (S : list var) : list var :=
  match get_fun_vars L f with
  | Some bs => let xs' := live_args xs bs in union_list S xs'
  | None => union_list S xs
  end.

(** dead_param_elim.v:103-122 *)
Fixpoint live_expr (L : live_fun) (e : exp) (S : list var) : list var :=
  match e with
  | Econstr x t ys e' => live_expr L e' (union_list S ys)
  | Eproj x t m y e' => live_expr L e' (sadd y S)
  | Eletapp x f ft ys e' =>
      let S' := sadd f S in
      let S'' := add_fun_vars L f ys S' in
      live_expr L e' S''
  | Ecase x P => sadd x (fold_left (fun S p => live_expr L (snd p) S) P S)
  | Ehalt x => sadd x S
  | Eapp f t ys => let S' := sadd f S in add_fun_vars L f ys S'
  | Efun fl e' => S
  | Eprim_val x p e' => live_expr L e' S
  | Eprim x f ys e' => live_expr L e' (union_list S ys)
  end.

(** dead_param_elim.v:124-133 *)
Fixpoint update_bs (S : list var) (xs : list var) (bs : list bool) : list bool * bool :=
  match xs, bs with
  | [], _ => (bs, false)
  | _, [] => (bs, false)
  | x :: xs, b :: bs =>
      let (bs', d) := update_bs S xs bs in
      if b then (b :: bs', d)
      else let b' := mem x S in (b' :: bs', (negb (eqb b b') || d))
  end.

(** dead_param_elim.v:135-142 *)
Definition update_live_fun (L : live_fun) (f : var) (xs S : list var) : live_fun * bool :=
  match get_fun_vars L f with
  | Some bs =>
      let (bs, diff) := update_bs S xs bs in
      if diff then (set_fun_vars L f bs, diff) else (L, diff)
  | None => (L, false)
  end.

(** dead_param_elim.v:146-153 *)
Fixpoint live (B : fundefs) (L : live_fun) (diff : bool) : live_fun * bool :=
  match B with
  | Fcons f ft xs e B' =>
      let S := live_expr L e [] in
      let (L', d) := update_live_fun L f xs S in
      live B' L' (d || diff)
  | Fnil => (L, diff)
  end.

(** dead_param_elim.v:158-164 *)
Fixpoint find_live_helper (B : fundefs) (prev_L : live_fun) (n : nat) : live_fun :=
  match n with
  | 0 => prev_L
  | S n' =>
      let (curr_L, diff) := live B prev_L false in
      if diff then find_live_helper B curr_L n' else curr_L
  end.

(** dead_param_elim.v:166-170 *)
Fixpoint num_vars (B : fundefs) (n : nat) : nat :=
  match B with
  | Fcons f ft xs e B' => num_vars B' (n + length xs)
  | Fnil => n
  end.

(** dead_param_elim.v:173-182 *)
Definition find_live (e : exp) : live_fun :=
  match e with
  | Efun B e' =>
      let initial_L := init_live_fun B in
      let L' := escaping_fun_exp e' (escaping_fun_fundefs B initial_L) in
      let n := num_vars B 0 + 1 in
      find_live_helper B L' n
  | _ => []
  end.

(** dead_param_elim.v:193 *)
Definition arityMap : Type := tmap fun_tag.
Definition ftagMap : Type := tmap fun_tag.

(** dead_param_elim.v:203-224 *)
Fixpoint make_arityMap (e : exp) (m : arityMap) : arityMap :=
  match e with
  | Econstr _ _ _ e => make_arityMap e m
  | Ecase x bs => fold_left (fun m p => make_arityMap (snd p) m) bs m
  | Eproj _ _ _ _ e => make_arityMap e m
  | Eletapp x f ft xs e => make_arityMap e (set (Pos.of_succ_nat (length xs)) ft m)
  | Efun B e => make_arityMap e (make_arityMap_fundefs B m)
  | Eapp f ft xs => set (Pos.of_succ_nat (length xs)) ft m
  | Eprim_val _ _ e => make_arityMap e m
  | Eprim _ _ _ e => make_arityMap e m
  | Ehalt x => m
  end
with make_arityMap_fundefs (B : fundefs) (m : arityMap) : arityMap :=
  match B with
  | Fcons f ft xs e B =>
      let m := set (Pos.of_succ_nat (length xs)) ft m in
      make_arityMap_fundefs B (make_arityMap e m)
  | Fnil => m
  end.

(** theories/LambdaANF/cps.v:406-408 *)
Definition fun_env : Type := tmap (N * list N).

(** the two fields of theories/LambdaANF/state.v:24-36 used here *)
Record tag_state := { next_fun_tag : fun_tag; fenv : fun_env }.

(** theories/LambdaANF/List_util.v:19-23 *)
Fixpoint fromN (n : N) (m : nat) : list N :=
  match m with 0 => [] | S m' => n :: fromN (N.succ n) m' end.

(** dead_param_elim.v:229-231 *)
Definition make_ftag (arity : nat) (c : tag_state) : fun_tag * tag_state :=
  let f := next_fun_tag c in
  (f, {| next_fun_tag := (f + 1)%positive;
         fenv := set f (N.of_nat arity, fromN 0 arity) (fenv c) |}).

(** dead_param_elim.v:235-251 *)
Fixpoint create_fun_tag (L : live_fun) (m : arityMap) (B : fundefs) (c : tag_state)
         (fmap : ftagMap) : ftagMap * tag_state :=
  match B with
  | Fcons f ft ys e B =>
      match get_fun_vars L f with
      | Some bs =>
          let n := length (live_args ys bs) in
          let p := Pos.of_succ_nat n in
          match get p m with
          | Some t => create_fun_tag L m B c (set f t fmap)
          | None =>
              let '(ft, c') := make_ftag n c in
              create_fun_tag L m B c' (set f ft fmap)
          end
      | None => create_fun_tag L m B c fmap
      end
  | Fnil => (fmap, c)
  end.

(** dead_param_elim.v:271-283 *)
Fixpoint is_hoisted_exp (e : exp) : bool :=
  match e with
  | Econstr _ _ _ e => is_hoisted_exp e
  | Eproj _ _ _ _ e => is_hoisted_exp e
  | Eletapp _ _ _ _ e => is_hoisted_exp e
  | Eprim_val _ _ e => is_hoisted_exp e
  | Eprim _ _ _ e => is_hoisted_exp e
  | Ecase x bs => forallb (fun p => is_hoisted_exp (snd p)) bs
  | Efun B e => false
  | Eapp _ _ _ => true
  | Ehalt _ => true
  end.

(** dead_param_elim.v:285-290 *)
Fixpoint is_hoisted_fundefs (B : fundefs) : bool :=
  match B with
  | Fcons _ _ _ e B => is_hoisted_exp e && is_hoisted_fundefs B
  | Fnil => true
  end.

(** dead_param_elim.v:292-296 *)
Definition is_hoisted (e : exp) : bool :=
  match e with
  | Efun B e => is_hoisted_fundefs B && is_hoisted_exp e
  | _ => is_hoisted_exp e
  end.

(** dead_param_elim.v:304-308 *)
Definition get_fun_tag (fmap : ftagMap) (f : var) : fun_tag :=
  match get f fmap with
  | Some t => t
  | None => 1%positive
  end.

(** dead_param_elim.v:312-364 *)
Fixpoint eliminate_expr (fmap : ftagMap) (L : live_fun) (e : exp) : exp :=
  match e with
  | Econstr x t ys e' => Econstr x t ys (eliminate_expr fmap L e')
  | Eproj x t m y e' => Eproj x t m y (eliminate_expr fmap L e')
  | Eletapp x f ft ys e' =>
      match get_fun_vars L f with
      | Some bs =>
          let ys' := live_args ys bs in
          let e'' := eliminate_expr fmap L e' in
          let ft' := get_fun_tag fmap f in
          Eletapp x f ft' ys' e''
      | None => Eletapp x f ft ys (eliminate_expr fmap L e')
      end
  | Ecase x P => Ecase x (List.map (fun p => (fst p, eliminate_expr fmap L (snd p))) P)
  | Ehalt x => Ehalt x
  | Efun fl e' => e
  | Eprim_val x p e' => Eprim_val x p (eliminate_expr fmap L e')
  | Eprim x f ys e' => Eprim x f ys (eliminate_expr fmap L e')
  | Eapp f ft ys =>
      match get_fun_vars L f with
      | Some bs =>
          let ys' := live_args ys bs in
          let ft' := get_fun_tag fmap f in
          Eapp f ft' ys'
      | None => Eapp f ft ys
      end
  end.

(** dead_param_elim.v:366-388 *)
Fixpoint eliminate_fundefs (fmap : ftagMap) (L : live_fun) (B : fundefs) : fundefs :=
  match B with
  | Fcons f ft ys e B' =>
      match get_fun_vars L f with
      | Some bs =>
          let ys' := live_args ys bs in
          let e' := eliminate_expr fmap L e in
          let B'' := eliminate_fundefs fmap L B' in
          let ft' := get_fun_tag fmap f in
          Fcons f ft' ys' e' B''
      | None =>
          Fcons f ft ys (eliminate_expr fmap L e) (eliminate_fundefs fmap L B')
      end
  | Fnil => Fnil
  end.

(** dead_param_elim.v:394-416; the log messages are left out. *)
Definition DPE (e : exp) (c_data : tag_state) : exp * tag_state :=
  if is_hoisted e then
    match e with
    | Efun B e' =>
        let L := find_live e in
        let m := make_arityMap e [] in
        let '(ftagMap, c_data) := create_fun_tag L m B c_data [] in
        (Efun (eliminate_fundefs ftagMap L B) (eliminate_expr ftagMap L e'), c_data)
    | e => (e, c_data)
    end
  else (e, c_data).

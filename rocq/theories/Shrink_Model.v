(** * The shrink reducer

    Source: theories/LambdaANF/shrink_cps.v:17-166, 645-1070, 1396-1427.

    Simplified: [contract] is defined by well-founded recursion on
    [term_sub_inl_size] in the repository, which also returns a proof that the
    set of inlined functions only grows; here it takes a bound on the depth of
    the recursion and answers [None] when the bound is too small
    (Shrink_Total.v proves that the measure of the repository, plus one, is
    always enough).  Maps are association lists (see ANF_Syntax). *)
From Coq Require Import ZArith NArith PArith List Bool.
From Verif Require Import ANF_Syntax ANF_Subst Shrink_Census Comp_Model.
Import ListNotations.

(** shrink_cps.v:19-21 *)
Inductive svalue : Type :=
| SVconstr : ctor_tag -> list var -> svalue
| SVfun : fun_tag -> list var -> exp -> svalue.

(** shrink_cps.v:24, 33 *)
Definition ctx_map := tmap svalue.
Definition b_map := tmap bool.

(** shrink_cps.v:36-40 and 49: [getd false] *)
Definition get_b (v : var) (m : b_map) : bool := match get v m with Some b => b | None => false end.

(** shrink_cps.v:57-75 *)
Fixpoint term_size (e : exp) : nat :=
  match e with
  | Econstr _ _ _ e => 1 + term_size e
  | Ecase _ cl => 1 + fold_right (fun (p : ctor_tag * exp) n => let (k, e) := p in n + term_size e) 0 cl
  | Eproj _ _ _ _ e => 1 + term_size e
  | Eletapp _ _ _ _ e => 1 + term_size e
  | Eapp _ _ _ => 1
  | Eprim_val _ _ e => 1 + term_size e
  | Eprim _ _ _ e => 1 + term_size e
  | Efun fds e => 1 + funs_size fds + term_size e
  | Ehalt _ => 1
  end
with funs_size (fds : fundefs) : nat :=
  match fds with
  | Fcons _ _ _ e fds' => 1 + funs_size fds' + term_size e
  | Fnil => 1
  end.

(** shrink_cps.v:77-84, 113-114, 129-130; here over the association list, so a shadowed
    entry counts as well *)
Definition svalue_size (v : svalue) : nat :=
  match v with SVconstr _ _ => 0 | SVfun _ _ e => term_size e end.
Definition svalue_inl_size (f : positive * svalue) (inl : b_map) : nat :=
  if get_b (fst f) inl then 0 else svalue_size (snd f).
Definition sub_inl_size (sub : ctx_map) (inl : b_map) : nat :=
  fold_right (fun v n => svalue_inl_size v inl + n) 0 sub.

(** shrink_cps.v:165-166 *)
Definition term_sub_inl_size (e : exp) (sub : ctx_map) (im : b_map) : nat :=
  term_size e + sub_inl_size sub im.

(** shrink_cps.v:652-663 *)
Fixpoint precontract (sig : subst) (count : c_map) (sub : ctx_map) (fds : fundefs)
  : fundefs * c_map * ctx_map :=
  match fds with
  | Fcons f t ys e fds' =>
      match get_c f count with
      | O => precontract sig (dec_census sig e count) sub fds'
      | _ =>
          let '(fds'', count', sub') := precontract sig count sub fds' in
          (Fcons f t ys e fds'', count', set f (SVfun t ys e) sub')
      end
  | Fnil => (Fnil, count, sub)
  end.

(** What a reduction returns: result, number of steps, census, inlined
    functions (shrink_cps.v:649 [shrinkT]) *)
Definition shrunk (A : Type) : Type := A * nat * c_map * b_map.

(** shrink_cps.v:759-777; [fcon] is [contract] for the current renaming and
    known values *)
Fixpoint contractcases (fcon : c_map -> exp -> b_map -> option (shrunk exp)) (count : c_map) (inl : b_map)
         (cl : list (ctor_tag * exp)) : option (shrunk (list (ctor_tag * exp))) :=
  match cl with
  | [] => Some ([], 0, count, inl)
  | (y, e) :: cl' =>
      match fcon count e inl with
      | Some (e', steps', count', inl') =>
          match contractcases fcon count' inl' cl' with
          | Some (cl'', steps'', count'', inl'') => Some ((y, e') :: cl'', steps' + steps'', count'', inl'')
          | None => None
          end
      | None => None
      end
  end.

(** shrink_cps.v:823-855 *)
Fixpoint postcontractfun (fcon : c_map -> exp -> b_map -> option (shrunk exp)) (sig : subst) (count : c_map)
         (inl : b_map) (fds : fundefs) (steps : nat) : option (shrunk fundefs) :=
  match fds with
  | Fnil => Some (Fnil, steps, count, inl)
  | Fcons f t ys e fds' =>
      if get_b f inl then postcontractfun fcon sig count inl fds' steps
      else
        match get_c f count with
        | O => postcontractfun fcon sig (dec_census sig e count) inl fds' steps
        | _ =>
            match fcon count e inl with
            | Some (e', steps', count', inl') =>
                match postcontractfun fcon sig count' inl' fds' steps with
                | Some (fds'', steps'', count'', inl'') =>
                    Some (Fcons f t ys e' fds'', steps' + steps'', count'', inl'')
                | None => None
                end
            | None => None
            end
        end
  end.

(** shrink_cps.v:872-876 *)
Definition incr_steps {A} (r : option (shrunk A)) : option (shrunk A) :=
  match r with Some (e, steps, count, im) => Some (e, steps + 1, count, im) | None => None end.

(** shrink_cps.v:878-1070 *)
Fixpoint contract (n : nat) (sig : subst) (count : c_map) (e : exp) (sub : ctx_map) (im : b_map) {struct n}
  : option (shrunk exp) :=
  match n with
  | O => None
  | S n =>
      match e with
      | Ehalt v => Some (Ehalt (apply_r sig v), 0, count, im)
      | Econstr x t ys e' =>
          match get_c x count with
          | O => incr_steps (contract n sig (dec_census_list sig ys count) e' sub im)
          | _ =>
              match contract n sig count e' (set x (SVconstr t ys) sub) im with
              | Some (e'', steps', count', im') =>
                  match get_c x count' with
                  | O => Some (e'', steps' + 1, dec_census_list sig ys count', im')
                  | _ => Some (Econstr x t (apply_r_list sig ys) e'', steps', count', im')
                  end
              | None => None
              end
          end
      | Eproj v t n' y e' =>
          match get_c v count with
          | O => incr_steps (contract n sig (dec_census_list sig [y] count) e' sub im)
          | _ =>
              let y' := apply_r sig y in
              match
                match get y' sub with
                | Some (SVconstr t' ys) => nthN ys n'
                | _ => None
                end
              with
              | Some yn =>
                  let yn' := apply_r sig yn in
                  incr_steps (contract n (set v yn' sig) (update_count_proj v y' yn' count) e' sub im)
              | None =>
                  match contract n sig count e' sub im with
                  | Some (e'', steps', count', im') =>
                      match get_c v count' with
                      | O => Some (e'', steps' + 1, dec_census_list sig [y] count', im')
                      | _ => Some (Eproj v t n' y' e'', steps', count', im')
                      end
                  | None => None
                  end
              end
          end
      | Eletapp x f t ys e' =>
          let f' := apply_r sig f in
          let ys' := apply_r_list sig ys in
          let keep :=
            match contract n sig count e' sub im with
            | Some (e'', steps, count', im') => Some (Eletapp x f' t ys' e'', steps, count', im')
            | None => None
            end in
          match get_c f' count, get f' sub with
          | 1, Some (SVfun t' xs e_body) =>
              if Pos.eqb t' t && Nat.eqb (length ys) (length xs) && negb (get_b f' im) then
                match inline_letapp e_body x with
                | Some (C_inl, x') =>
                    let im' := set f' true im in
                    let sig' := set_list (combine xs ys') sig in
                    let count' := update_count_letapp (apply_r sig' x') x
                                    (update_count_inlined ys' xs (set f' 0 count)) in
                    incr_steps (contract n sig' count' (app_ctx_f C_inl (rename_all_ns (set x x' []) e')) sub im')
                | None => keep
                end
              else keep
          | _, _ => keep
          end
      | Eprim_val x p e' =>
          match contract n sig count e' sub im with
          | Some (e'', steps', count', im') => Some (Eprim_val x p e'', steps', count', im')
          | None => None
          end
      | Eprim x f ys e' =>
          match contract n sig count e' sub im with
          | Some (e'', steps', count', im') => Some (Eprim x f (apply_r_list sig ys) e'', steps', count', im')
          | None => None
          end
      | Ecase v cl =>
          let v' := apply_r sig v in
          match
            match get v' sub with
            | Some (SVconstr t _) => match findtag cl t with Some k => Some (t, k) | None => None end
            | _ => None
            end
          with
          | Some (t, k) =>
              incr_steps (contract n sig (dec_census_case sig cl t (dec_census_list sig [v] count)) k sub im)
          | None =>
              match contractcases (fun count e im => contract n sig count e sub im) count im cl with
              | Some (cl', steps', count', im') => Some (Ecase v' cl', steps', count', im')
              | None => None
              end
          end
      | Efun fl e' =>
          let '(fl', count', sub') := precontract sig count sub fl in
          match contract n sig count' e' sub' im with
          | Some (e'', steps', count'', im') =>
              match postcontractfun (fun count e im => contract n sig count e sub im) sig count'' im' fl' 0 with
              | Some (fl'', steps'', count''', im'') =>
                  match fl'' with
                  | Fnil => Some (e'', steps' + steps'' + 1, count''', im'')
                  | _ => Some (Efun fl'' e'', steps' + steps'', count''', im'')
                  end
              | None => None
              end
          | None => None
          end
      | Eapp f t ys =>
          let f' := apply_r sig f in
          let ys' := apply_r_list sig ys in
          let keep := Some (Eapp f' t ys', 0, count, im) in
          match get_c f' count, get f' sub with
          | 1, Some (SVfun t' xs m) =>
              if Pos.eqb t' t && (Nat.eqb (length ys) (length xs) && negb (get_b f' im)) then
                let im' := set f' true im in
                let count' := update_count_inlined ys' xs (set f' 0 count) in
                incr_steps (contract n (set_list (combine xs ys') sig) count' m sub im')
              else keep
          | _, _ => keep
          end
      end
  end.

(** enough depth for one call from the start: the measure plus one *)
Definition depth (e : exp) : nat := S (term_sub_inl_size e [] []).

(** shrink_cps.v:1396-1411 *)
Definition shrink_top (e : exp) : option (exp * nat) :=
  let fvs := exp_fv e in
  let f := (max_var e 1 + 1)%positive in
  let t := 1%positive in
  let e := Efun (Fcons f t fvs e Fnil) (Ehalt f) in
  match contract (depth e) [] (init_census e) e [] [] with
  | Some (e', steps, _, _) =>
      match e' with
      | Efun (Fcons _ _ _ e' Fnil) _ => Some (e', steps)
      | _ => Some (e', steps)
      end
  | None => None
  end.

(** shrink_cps.v:1413-1427 *)
Fixpoint shrink_n_times' (e : exp) (c : c_map) (n : nat) {struct n} : option (exp * c_map) :=
  match n with
  | 0 => Some (e, c)
  | S n' =>
      match contract (depth e) [] c e [] [] with
      | Some (e', _, c', _) => shrink_n_times' e' c' n'
      | None => None
      end
  end.
Definition shrink_n_times (e : exp) (n : nat) : option exp :=
  match shrink_n_times' e (init_census e) n with Some (e, _) => Some e | None => None end.

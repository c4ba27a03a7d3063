(** * Inlining

    Source: theories/LambdaANF/inline.v.

    The compilation monad is a state monad with errors; the pass uses only
    [ret], [bind], [get_name'] and its own state, so it is a plain
    state-passing function here.  Of the state only the next variable and the
    flag "something was inlined" matter; the table of printed names is left
    out. *)
From Coq Require Import ZArith NArith PArith List Lia Bool.
From Verif Require Import ANF_Syntax ANF_Subst.
Import ListNotations.

(** inline.v:16 *)
Definition r_map := tmap var.

(** inline.v:19-24: decisions are taken by an arbitrary heuristic with a state
    of its own *)
Record InlineHeuristic (St : Type) :=
  { update_funDef : fundefs -> r_map -> St -> St * St;
    update_inFun : var -> fun_tag -> list var -> exp -> r_map -> St -> St;
    update_App : var -> fun_tag -> list var -> St -> St * bool;
    update_letApp : var -> fun_tag -> list var -> St -> St * St * bool }.
Arguments update_funDef {St}.
Arguments update_inFun {St}.
Arguments update_App {St}.
Arguments update_letApp {St}.

(** inline.v:26 *)
Definition fun_map := tmap (fun_tag * list var * exp).

(** inline.v:29-33 and the field [next_var] of theories/LambdaANF/state.v:24 *)
Record istate := { clicked : bool; next_var : positive }.

(** inline.v:43-45 *)
Definition click (w : istate) : istate := {| clicked := true; next_var := next_var w |}.

(** inline.v:47-49, theories/LambdaANF/state.v:60-66 *)
Definition get_fresh_name (x : var) (w : istate) : var * istate :=
  (next_var w, {| clicked := clicked w; next_var := (next_var w + 1)%positive |}).

(** inline.v:51-53, theories/LambdaANF/state.v:71-72, theories/common/compM.v:10-19 *)
Fixpoint get_fresh_names (xs : list var) (w : istate) : list var * istate :=
  match xs with
  | [] => ([], w)
  | x :: xs =>
      let (x', w) := get_fresh_name x w in
      let (xs', w) := get_fresh_names xs w in
      (x' :: xs', w)
  end.

(** inline.v:57-61 *)
Fixpoint add_fundefs (fds : fundefs) (fm : fun_map) : fun_map :=
  match fds with
  | Fnil => fm
  | Fcons f t xs e fds => set f (t, xs, e) (add_fundefs fds fm)
  end.

(** inline.v:77-79 *)
Definition split_fuel d : nat * nat :=
  let d2 := Nat.div2 d in (d2, d2 + Nat.b2n (Nat.odd d)).

Section Inline.
  Variable St : Type.
  Variable IH : InlineHeuristic St.

  (** inline.v:88-193 *)
  Fixpoint inline_exp (d : nat) (j : nat) {struct d} : exp -> r_map -> fun_map -> St -> istate -> exp * istate :=
    fix inline_exp_aux (e : exp) (sig : r_map) (fm : fun_map) (s : St) (w : istate) {struct e} : exp * istate :=
      match e with
      | Econstr x t ys e =>
          let ys' := apply_r_list sig ys in
          let (x', w) := get_fresh_name x w in
          let (e', w) := inline_exp_aux e (set x x' sig) fm s w in
          (Econstr x' t ys' e', w)
      | Ecase v cl =>
          let v' := apply_r sig v in
          let (cl', w) :=
            (fix beta_list (br : list (ctor_tag * exp)) (w : istate) : list (ctor_tag * exp) * istate :=
               match br with
               | [] => ([], w)
               | (t, e) :: br' =>
                   let (e', w) := inline_exp_aux e sig fm s w in
                   let (br'', w) := beta_list br' w in
                   ((t, e') :: br'', w)
               end) cl w in
          (Ecase v' cl', w)
      | Eproj x t n y e =>
          let y' := apply_r sig y in
          let (x', w) := get_fresh_name x w in
          let (e', w) := inline_exp_aux e (set x x' sig) fm s w in
          (Eproj x' t n y' e', w)
      | Eletapp x f t ys ec =>
          let f' := apply_r sig f in
          let ys' := apply_r_list sig ys in
          let '(s', s'', inl_dec) := update_letApp IH f t ys' s in
          match inl_dec, get f fm, d, j with
          | true, Some (ft, xs, e), S d', S j' =>
              if Nat.eqb (List.length xs) (List.length ys) then
                let sig' := set_list (combine xs ys') sig in
                let (x', w) := get_fresh_name x w in
                let '(j1, j2) := split_fuel j' in
                let (e', w) := inline_exp d' j1 e sig' (mremove f fm) s' w in
                match inline_letapp e' x' with
                | Some (C, x') =>
                    let w := click w in
                    let (ec', w) := inline_exp d' j2 ec (set x x' sig) fm s'' w in
                    (app_ctx_f C ec', w)
                | _ =>
                    let (x', w) := get_fresh_name x w in
                    let (ec', w) := inline_exp_aux ec (set x x' sig) fm s' w in
                    (Eletapp x' f' t ys' ec', w)
                end
              else
                let (x', w) := get_fresh_name x w in
                let (ec', w) := inline_exp_aux ec (set x x' sig) fm s' w in
                (Eletapp x' f' t ys' ec', w)
          | _, _, _, _ =>
              let (x', w) := get_fresh_name x w in
              let (ec', w) := inline_exp_aux ec (set x x' sig) fm s' w in
              (Eletapp x' f' t ys' ec', w)
          end
      | Efun fds e =>
          let fm' := add_fundefs fds fm in
          let (s1, s2) := update_funDef IH fds sig s in
          let names := all_fun_name fds in
          let (names', w) := get_fresh_names names w in
          let sig' := set_list (combine names names') sig in
          let (fds', w) :=
            (fix inline_exp_fds (fds : fundefs) (s : St) (w : istate) : fundefs * istate :=
               match fds with
               | Fcons f t xs e fds' =>
                   let s' := update_inFun IH f t xs e sig s in
                   let f' := apply_r sig' f in
                   let (xs', w) := get_fresh_names xs w in
                   let (e', w) := inline_exp_aux e (set_list (combine xs xs') sig') (mremove f fm') s' w in
                   let (fds'', w) := inline_exp_fds fds' s w in
                   (Fcons f' t xs' e' fds'', w)
               | Fnil => (Fnil, w)
               end) fds s1 w in
          let (e', w) := inline_exp_aux e sig' fm' s2 w in
          (Efun fds' e', w)
      | Eapp f t ys =>
          let f' := apply_r sig f in
          let ys' := apply_r_list sig ys in
          let (s', inl) := update_App IH f t ys' s in
          match inl, get f fm, d, j with
          | true, Some (ft, xs, e), S d', S j' =>
              if Nat.eqb (List.length xs) (List.length ys) then
                let sig' := set_list (combine xs ys') sig in
                let w := click w in
                inline_exp d' j' e sig' (mremove f fm) s' w
              else (Eapp f' t ys', w)
          | _, _, _, _ => (Eapp f' t ys', w)
          end
      | Eprim_val x p e =>
          let (x', w) := get_fresh_name x w in
          let (e', w) := inline_exp_aux e (set x x' sig) fm s w in
          (Eprim_val x' p e', w)
      | Eprim x t ys e =>
          let ys' := apply_r_list sig ys in
          let (x', w) := get_fresh_name x w in
          let (e', w) := inline_exp_aux e (set x x' sig) fm s w in
          (Eprim x' t ys' e', w)
      | Ehalt x => (Ehalt (apply_r sig x), w)
      end.

  (** [PS.max_elt] *)
  Fixpoint max_elt (l : list var) : option var :=
    match l with
    | [] => None
    | x :: l => match max_elt l with None => Some x | Some y => Some (Pos.max x y) end
    end.

  (** inline.v:207-217: the counter of names restarts above the free variables
      and the reserved ones *)
  Definition restart_names (max_var : var) (e : exp) : positive :=
    match max_elt (exp_fv e) with
    | Some v => (Pos.max v max_var + 1)%positive
    | None => (max_var + 1)%positive
    end.

  (** inline.v:221-224 *)
  Definition inline_top' (max_var : var) (d : nat) (s : St) (e : exp) : exp * istate :=
    inline_exp d d e [] [] s {| clicked := false; next_var := restart_names max_var e |}.
End Inline.

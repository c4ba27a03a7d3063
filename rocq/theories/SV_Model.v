(** The other definitions of evaluation of LambdaANF.
    Source: /repo/theories/LambdaANF/eval.v has five of them: the relation [bstep] with fuel (ANF_Eval.v),
    the evaluator [bstep_f], the small steps [step], the older big steps [bstep_e] with a count of
    calls, and [bstep_cost] with a cost of instructions.  Here are the last four.

    Simplified: a message of an exception is left out; [caseConsistent] is its boolean form, as in
    ANF_Syntax.v; an equation [M.set x v rho = rho'] is replaced by its left side. *)
From Coq Require Import ZArith NArith List Bool.
From Coq Require Import Relations.
From Verif Require Import ANF_Syntax.
Import ListNotations.

(** eval.v:21 *)
Definition state : Type := (env * exp)%type.

(** eval.v:24, the meanings of the primitive operations *)
Definition prims := tmap (list val -> option val).

(** common/exceptionMonad.v, without the message *)
Inductive exception (A : Type) : Type :=
| Exc : exception A
| Ret : A -> exception A.
Arguments Exc {A}.
Arguments Ret {A}.

(** exceptionMonad.v [bind] after [l_opt] of eval.v:1052-1056 *)
Definition opt_bind {A B} (o : option A) (f : A -> exception B) : exception B :=
  match o with Some a => f a | None => Exc end.

(** cps_util.v:143-151 *)
Inductive find_tag_nth : list (ctor_tag * exp) -> ctor_tag -> exp -> nat -> Prop :=
| find_tag_hd : forall c e l, find_tag_nth ((c, e) :: l) c e 1
| find_tag_lt : forall c e l c' e' n,
    find_tag_nth l c' e' n -> c <> c' -> find_tag_nth ((c, e) :: l) c' e' (n + 1).

Section Eval.
(** eval.v:28-30: the meanings of primitive operations and the table of constructors *)
Variable pr : prims.
Variable cenv : ctor_env.

(** eval.v:1133-1211 [bstep_f]: the state that is left if the fuel runs out, or the value *)
Fixpoint bstep_f (rho : env) (e : exp) (n : nat) : exception (state + val) :=
  match n with
  | O => Ret (inl (rho, e))
  | S n' =>
      match e with
      | Eprim_val x p e' => bstep_f (set x (Vprim p) rho) e' n'
      | Eprim x f ys e' =>
          opt_bind (get_list ys rho) (fun vs =>
          opt_bind (get f pr) (fun f' =>
          opt_bind (f' vs) (fun v => bstep_f (set x v rho) e' n')))
      | Econstr x t ys e' =>
          opt_bind (get_list ys rho) (fun vs => bstep_f (set x (Vconstr t vs) rho) e' n')
      | Eproj x t m y e' =>
          match get y rho with
          | Some (Vconstr t' vs) =>
              if Pos.eqb t t' then
                opt_bind (nthN vs m) (fun v => bstep_f (set x v rho) e' n')
              else Exc
          | _ => Exc
          end
      | Efun fl e' => bstep_f (def_funs fl fl rho rho) e' n'
      | Ehalt x => match get x rho with Some v => Ret (inr v) | None => Exc end
      | Ecase y cl =>
          match get y rho with
          | Some (Vconstr t vs) =>
              opt_bind (findtag cl t) (fun e =>
              if caseConsistent_f cenv cl t then bstep_f rho e n' else Exc)
          | _ => Exc
          end
      | Eletapp x f t ys e =>
          match get f rho with
          | Some (Vfun rho' fl f') =>
              opt_bind (get_list ys rho) (fun vs =>
              match find_def f' fl with
              | Some (t', xs, e_body) =>
                  if Pos.eqb t t' then
                    opt_bind (set_lists xs vs (def_funs fl fl rho' rho')) (fun rho'' =>
                    match bstep_f rho'' e_body n' with
                    | Exc => Exc
                    | Ret (inl st) => Ret (inl st)
                    | Ret (inr v) => bstep_f (set x v rho) e n'
                    end)
                  else Exc
              | _ => Exc
              end)
          | _ => Exc
          end
      | Eapp f t ys =>
          match get f rho with
          | Some (Vfun rho' fl f') =>
              opt_bind (get_list ys rho) (fun vs =>
              match find_def f' fl with
              | Some (t', xs, e) =>
                  if Pos.eqb t t' then
                    opt_bind (set_lists xs vs (def_funs fl fl rho' rho')) (fun rho'' =>
                    bstep_f rho'' e n')
                  else Exc
              | _ => Exc
              end)
          | _ => Exc
          end
      end
  end.

(** eval.v:1215-1245 [step]; there is no rule for [Eletapp] and none for [Eprim_val] *)
Inductive step : state -> state -> Prop :=
| Step_constr : forall vs rho x t ys e,
    get_list ys rho = Some vs ->
    step (rho, Econstr x t ys e) (set x (Vconstr t vs) rho, e)
| Step_proj : forall vs v rho x t n y e,
    get y rho = Some (Vconstr t vs) -> nthN vs n = Some v ->
    step (rho, Eproj x t n y e) (set x v rho, e)
| Step_case : forall t vl e' rho y cl,
    get y rho = Some (Vconstr t vl) -> caseConsistent_f cenv cl t = true ->
    findtag cl t = Some e' ->
    step (rho, Ecase y cl) (rho, e')
| Step_fun : forall rho fl e, step (rho, Efun fl e) (def_funs fl fl rho rho, e)
| Step_app : forall rho' fl f' vs xs e rho'' rho f t ys,
    get f rho = Some (Vfun rho' fl f') -> get_list ys rho = Some vs ->
    find_def f' fl = Some (t, xs, e) ->
    set_lists xs vs (def_funs fl fl rho' rho') = Some rho'' ->
    step (rho, Eapp f t ys) (rho'', e)
| Step_prim : forall vs v rho x f f' ys e,
    get_list ys rho = Some vs -> get f pr = Some f' -> f' vs = Some v ->
    step (rho, Eprim x f ys e) (set x v rho, e).

(** eval.v:1254-1258 *)
Inductive halt_state : state -> val -> Prop :=
| Chalt : forall rho x v, get x rho = Some v -> halt_state (rho, Ehalt x) v.

(** eval.v:1590 *)
Definition mstep : relation state := clos_refl_trans_1n state step.

(** eval.v:1265-1334 [bstep_e]; the number counts calls *)
Inductive bstep_e : env -> exp -> val -> nat -> Prop :=
| BStep_constr : forall x t ys e rho vs v c,
    get_list ys rho = Some vs -> bstep_e (set x (Vconstr t vs) rho) e v c ->
    bstep_e rho (Econstr x t ys e) v c
| BStep_proj : forall t vs v rho x n y e ov c,
    get y rho = Some (Vconstr t vs) -> nthN vs n = Some v ->
    bstep_e (set x v rho) e ov c ->
    bstep_e rho (Eproj x t n y e) ov c
| BStep_case : forall y v e t cl vl rho c,
    get y rho = Some (Vconstr t vl) -> caseConsistent_f cenv cl t = true ->
    findtag cl t = Some e -> bstep_e rho e v c ->
    bstep_e rho (Ecase y cl) v c
| BStep_app : forall rho' fl f' vs xs e rho'' rho f t ys v c,
    get f rho = Some (Vfun rho' fl f') -> get_list ys rho = Some vs ->
    find_def f' fl = Some (t, xs, e) ->
    set_lists xs vs (def_funs fl fl rho' rho') = Some rho'' ->
    bstep_e rho'' e v c ->
    bstep_e rho (Eapp f t ys) v (c + 1)
| BStep_letapp : forall rho' fl f' vs xs e_body e rho'' rho x f t ys v v' c c',
    get f rho = Some (Vfun rho' fl f') -> get_list ys rho = Some vs ->
    find_def f' fl = Some (t, xs, e_body) ->
    set_lists xs vs (def_funs fl fl rho' rho') = Some rho'' ->
    bstep_e rho'' e_body v c -> bstep_e (set x v rho) e v' c' ->
    bstep_e rho (Eletapp x f t ys e) v' (c + c' + 1)
| BStep_fun : forall rho fl e v c,
    bstep_e (def_funs fl fl rho rho) e v c -> bstep_e rho (Efun fl e) v c
| BStep_prim_val : forall rho x p e v c,
    bstep_e (set x (Vprim p) rho) e v c -> bstep_e rho (Eprim_val x p e) v c
| BStep_prim : forall vs rho x f f' ys e v v' c,
    get_list ys rho = Some vs -> get f pr = Some f' -> f' vs = Some v ->
    bstep_e (set x v rho) e v' c ->
    bstep_e rho (Eprim x f ys e) v' c
| BStep_halt : forall x v rho, get x rho = Some v -> bstep_e rho (Ehalt x) v 0.

(** eval.v:1342-1425 [bstep_cost]; [length (fundefs_fv B)] is [PS.cardinal (fundefs_fv B)], since the
    list of ANF_Syntax.v is built without repetition *)
Inductive bstep_cost : env -> exp -> val -> nat -> Prop :=
| BStepc_constr : forall x t ys e rho vs v c,
    get_list ys rho = Some vs -> bstep_cost (set x (Vconstr t vs) rho) e v c ->
    bstep_cost rho (Econstr x t ys e) v (c + 1 + length ys)
| BStepc_proj : forall t vs rho x n y e v v' c,
    get y rho = Some (Vconstr t vs) -> nthN vs n = Some v ->
    bstep_cost (set x v rho) e v' c ->
    bstep_cost rho (Eproj x t n y e) v' (c + 1)
| BStepc_case : forall y v e t cl vl rho n c,
    get y rho = Some (Vconstr t vl) -> caseConsistent_f cenv cl t = true ->
    find_tag_nth cl t e n -> bstep_cost rho e v c ->
    bstep_cost rho (Ecase y cl) v (c + n)
| BStepc_app : forall rho' fl f' vs xs e rho'' rho f t ys v c,
    get f rho = Some (Vfun rho' fl f') -> get_list ys rho = Some vs ->
    find_def f' fl = Some (t, xs, e) ->
    set_lists xs vs (def_funs fl fl rho' rho') = Some rho'' ->
    bstep_cost rho'' e v c ->
    bstep_cost rho (Eapp f t ys) v (c + 1 + length ys)
| BStepc_letapp : forall rho' fl f' vs xs e_body e rho'' rho x f t ys v v' c c',
    get f rho = Some (Vfun rho' fl f') -> get_list ys rho = Some vs ->
    find_def f' fl = Some (t, xs, e_body) ->
    set_lists xs vs (def_funs fl fl rho' rho') = Some rho'' ->
    bstep_cost rho'' e_body v c -> bstep_cost (set x v rho) e v' c' ->
    bstep_cost rho (Eletapp x f t ys e) v' (c + c' + 1 + length ys)
| BStepc_fun : forall rho B e v c,
    bstep_cost (def_funs B B rho rho) e v c ->
    bstep_cost rho (Efun B e) v (c + (1 + length (fundefs_fv B)))
| BStepc_prim_val : forall rho x p e v' c,
    bstep_cost (set x (Vprim p) rho) e v' c -> bstep_cost rho (Eprim_val x p e) v' (c + 1)
| BStepc_prim : forall vs rho x f f' ys e v v' c,
    get_list ys rho = Some vs -> get f pr = Some f' -> f' vs = Some v ->
    bstep_cost (set x v rho) e v' c ->
    bstep_cost rho (Eprim x f ys e) v' (c + 1 + length ys)
| BStepc_halt : forall x v rho, get x rho = Some v -> bstep_cost rho (Ehalt x) v 1.
End Eval.

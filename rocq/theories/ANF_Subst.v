(** * Renamings, contexts and let-inlining for LambdaANF

    Source: theories/LambdaANF/rename.v, ctx.v, inline_letapp.v, map_util.v. *)
From Coq Require Import ZArith NArith List Lia Bool.
From Verif Require Import ANF_Syntax.
Import ListNotations.

(** [PTree.remove] *)
Definition mremove {A} (x : positive) (m : tmap A) : tmap A :=
  filter (fun p => if Pos.eq_dec x (fst p) then false else true) m.

(** theories/LambdaANF/map_util.v:164-165 *)
Definition set_list {A} (l : list (positive * A)) (map : tmap A) : tmap A :=
  fold_right (fun xv cmap => set (fst xv) (snd xv) cmap) map l.

(** theories/LambdaANF/rename.v:13 *)
Definition subst := tmap var.

(** theories/LambdaANF/rename.v:17-21 *)
Definition apply_r (sigma : subst) y :=
  match get y sigma with
  | Some v => v
  | None => y
  end.

(** theories/LambdaANF/rename.v:23-24 *)
Definition apply_r_list (sigma : subst) ys := map (apply_r sigma) ys.

(** theories/LambdaANF/rename.v:28-32 *)
Fixpoint all_fun_name (fds : fundefs) : list var :=
  match fds with
  | Fcons f t ys e fds' => f :: all_fun_name fds'
  | Fnil => []
  end.

(** theories/LambdaANF/rename.v:34-38 *)
Fixpoint remove_all (sigma : subst) (vs : list var) : subst :=
  match vs with
  | v :: vs' => mremove v (remove_all sigma vs')
  | [] => sigma
  end.

(** theories/LambdaANF/rename.v:40-64 *)
Fixpoint rename_all (sigma : subst) (e : exp) : exp :=
  match e with
  | Econstr x t ys e' => Econstr x t (apply_r_list sigma ys) (rename_all (mremove x sigma) e')
  | Eprim_val x p e' => Eprim_val x p (rename_all (mremove x sigma) e')
  | Eprim x f ys e' => Eprim x f (apply_r_list sigma ys) (rename_all (mremove x sigma) e')
  | Eletapp x f ft ys e' =>
      Eletapp x (apply_r sigma f) ft (apply_r_list sigma ys) (rename_all (mremove x sigma) e')
  | Eproj v t n y e' => Eproj v t n (apply_r sigma y) (rename_all (mremove v sigma) e')
  | Ecase v cl =>
      Ecase (apply_r sigma v)
        (List.map (fun p : ctor_tag * exp => let (k, e) := p in (k, rename_all sigma e)) cl)
  | Efun fl e' =>
      let fs := all_fun_name fl in
      let fl' := rename_all_fun (remove_all sigma fs) fl in
      Efun fl' (rename_all (remove_all sigma fs) e')
  | Eapp f t ys => Eapp (apply_r sigma f) t (apply_r_list sigma ys)
  | Ehalt v => Ehalt (apply_r sigma v)
  end
with rename_all_fun (sigma : subst) (fds : fundefs) : fundefs :=
  match fds with
  | Fnil => Fnil
  | Fcons v' t ys e fds' =>
      Fcons v' t ys (rename_all (remove_all sigma ys) e) (rename_all_fun sigma fds')
  end.

(** theories/LambdaANF/rename.v:104 *)
Definition rename y x e := rename_all (set x y []) e.

(** theories/LambdaANF/rename.v:107-128: the version for renamings whose
    domain no binder of the program meets *)
Fixpoint rename_all_ns (sigma : subst) (e : exp) : exp :=
  match e with
  | Econstr x t ys e' => Econstr x t (apply_r_list sigma ys) (rename_all_ns sigma e')
  | Eprim_val x p e' => Eprim_val x p (rename_all_ns sigma e')
  | Eprim x f ys e' => Eprim x f (apply_r_list sigma ys) (rename_all_ns sigma e')
  | Eproj v t n y e' => Eproj v t n (apply_r sigma y) (rename_all_ns sigma e')
  | Eletapp v f t ys e' =>
      Eletapp v (apply_r sigma f) t (apply_r_list sigma ys) (rename_all_ns sigma e')
  | Ecase v cl =>
      Ecase (apply_r sigma v)
        (List.map (fun p : ctor_tag * exp => let (k, e) := p in (k, rename_all_ns sigma e)) cl)
  | Efun fl e' => Efun (rename_all_fun_ns sigma fl) (rename_all_ns sigma e')
  | Eapp f t ys => Eapp (apply_r sigma f) t (apply_r_list sigma ys)
  | Ehalt v => Ehalt (apply_r sigma v)
  end
with rename_all_fun_ns (sigma : subst) (fds : fundefs) : fundefs :=
  match fds with
  | Fnil => Fnil
  | Fcons v' t ys e fds' =>
      Fcons v' t ys (rename_all_ns sigma e) (rename_all_fun_ns sigma fds')
  end.

(** ** Contexts: theories/LambdaANF/ctx.v:15-28 *)
Inductive exp_ctx : Type :=
| Hole_c : exp_ctx
| Econstr_c : var -> ctor_tag -> list var -> exp_ctx -> exp_ctx
| Eproj_c : var -> ctor_tag -> N -> var -> exp_ctx -> exp_ctx
| Eprim_val_c : var -> primitive_value -> exp_ctx -> exp_ctx
| Eprim_c : var -> prim -> list var -> exp_ctx -> exp_ctx
| Eletapp_c : var -> var -> fun_tag -> list var -> exp_ctx -> exp_ctx
| Ecase_c : var -> list (ctor_tag * exp) -> ctor_tag -> exp_ctx -> list (ctor_tag * exp) -> exp_ctx
| Efun1_c : fundefs -> exp_ctx -> exp_ctx
| Efun2_c : fundefs_ctx -> exp -> exp_ctx
with fundefs_ctx :=
| Fcons1_c : var -> ctor_tag -> list var -> exp_ctx -> fundefs -> fundefs_ctx
| Fcons2_c : var -> ctor_tag -> list var -> exp -> fundefs_ctx -> fundefs_ctx.

(** theories/LambdaANF/ctx.v:69-86 *)
Fixpoint app_ctx_f (c : exp_ctx) (e : exp) : exp :=
  match c with
  | Hole_c => e
  | Econstr_c x t ys c => Econstr x t ys (app_ctx_f c e)
  | Eproj_c x t n y c => Eproj x t n y (app_ctx_f c e)
  | Eletapp_c x f ft ys c => Eletapp x f ft ys (app_ctx_f c e)
  | Ecase_c x te t c te' => Ecase x (te ++ (t, app_ctx_f c e) :: te')
  | Eprim_val_c x p c => Eprim_val x p (app_ctx_f c e)
  | Eprim_c x f ys c => Eprim x f ys (app_ctx_f c e)
  | Efun1_c fds c => Efun fds (app_ctx_f c e)
  | Efun2_c cfds e' => Efun (app_f_ctx_f cfds e) e'
  end
with app_f_ctx_f (c : fundefs_ctx) (e : exp) : fundefs :=
  match c with
  | Fcons1_c f t ys c fds => Fcons f t ys (app_ctx_f c e) fds
  | Fcons2_c f t ys e' cfds => Fcons f t ys e' (app_f_ctx_f cfds e)
  end.

(** theories/LambdaANF/inline_letapp.v:15-52: the function body [e] as a
    context that computes its result into the variable returned; [z] is the
    variable used when the body ends in a call. *)
Fixpoint inline_letapp (e : exp) (z : var) : option (exp_ctx * var) :=
  match e with
  | Econstr x ct xs e =>
      match inline_letapp e z with
      | Some (C, v) => Some (Econstr_c x ct xs C, v) | None => None end
  | Ecase x P => None
  | Eproj x n ct y e =>
      match inline_letapp e z with
      | Some (C, v) => Some (Eproj_c x n ct y C, v) | None => None end
  | Eletapp x f ft ys e =>
      match inline_letapp e z with
      | Some (C, v) => Some (Eletapp_c x f ft ys C, v) | None => None end
  | Efun B e =>
      match inline_letapp e z with
      | Some (C, v) => Some (Efun1_c B C, v) | None => None end
  | Eapp f ft ys => Some (Eletapp_c z f ft ys Hole_c, z)
  | Eprim_val x p e =>
      match inline_letapp e z with
      | Some (C, v) => Some (Eprim_val_c x p C, v) | None => None end
  | Eprim x p ys e =>
      match inline_letapp e z with
      | Some (C, v) => Some (Eprim_c x p ys C, v) | None => None end
  | Ehalt x => Some (Hole_c, x)
  end.

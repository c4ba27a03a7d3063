(** * The census: specification and proofs *)
From Coq Require Import ZArith NArith PArith List Lia Bool.
From Verif Require Import ANF_Syntax ANF_Subst ANF_Spec Shrink_Census.
Import ListNotations.

(** ** Specification *)

(** The variables used in a program, one entry per use; binders are not uses. *)
Fixpoint uses (e : exp) : list var :=
  match e with
  | Econstr _ _ ys e => ys ++ uses e
  | Ecase v cl => v :: flat_map (fun p => uses (snd p)) cl
  | Eproj _ _ _ y e => y :: uses e
  | Eletapp _ f _ ys e => f :: ys ++ uses e
  | Efun B e => uses_funs B ++ uses e
  | Eapp f _ ys => f :: ys
  | Eprim_val _ _ e => uses e
  | Eprim _ _ ys e => ys ++ uses e
  | Ehalt v => [v]
  end
with uses_funs (B : fundefs) : list var :=
  match B with
  | Fcons _ _ _ e B => uses e ++ uses_funs B
  | Fnil => []
  end.

(** How many times [v] is in the list [l]. *)
Notation occ l v := (@count_occ var Pos.eq_dec l v).

(** The census [c] is right for the program [e]. *)
Definition counts (c : c_map) (e : exp) : Prop := forall v, get_c v c = occ (uses e) v.

(** A bundle without the function [f]. *)
Fixpoint drop_fun (f : var) (B : fundefs) : fundefs :=
  match B with
  | Fcons g t xs b B => if Pos.eq_dec f g then B else Fcons g t xs b (drop_fun f B)
  | Fnil => Fnil
  end.

(** ** Proofs *)

Lemma get_c_set x n c v : get_c v (set x n c) = if Pos.eq_dec v x then n else get_c v c.
Proof. unfold get_c, set. cbn [get]. destruct (Pos.eq_dec v x); reflexivity. Qed.

Fixpoint itn (n : nat) (g : nat -> nat) (k : nat) : nat :=
  match n with O => k | S n => g (itn n g k) end.

Lemma itn_add n m g k : itn (n + m) g k = itn n g (itn m g k).
Proof. induction n; cbn; congruence. Qed.

Lemma itn_eq n m g k : n = m -> itn n g k = itn m g k.
Proof. intros ->. reflexivity. Qed.

Lemma itn_comm n g k : itn n g (g k) = g (itn n g k).
Proof. induction n; cbn; congruence. Qed.

Lemma itn_S n k : itn n (fun k => k + 1) k = k + n.
Proof. induction n; cbn; lia. Qed.

Lemma itn_P n k : itn n (fun k => k - 1) k = k - n.
Proof. induction n; cbn; lia. Qed.

Section Generic.
Variable g : nat -> nat.
Let delta : var -> c_map -> nat := fun v c => g (get_c v c).

Lemma ucl_itn sig ys : forall c v,
  get_c v (update_census_list sig ys delta c) = itn (occ (apply_r_list sig ys) v) g (get_c v c).
Proof.
  induction ys as [|y ys IH]; intros c v; cbn [update_census_list apply_r_list map count_occ].
  - reflexivity.
  - rewrite IH. fold (apply_r_list sig ys). rewrite get_c_set.
    destruct (Pos.eq_dec v (apply_r sig y)) as [->|N]; destruct (Pos.eq_dec _ _) as [E|E]; try congruence.
    unfold delta. rewrite itn_comm. reflexivity.
Qed.

Lemma occ_cons (a : var) l v : occ (a :: l) v = occ [a] v + occ l v.
Proof. cbn [count_occ]. destruct (Pos.eq_dec a v); reflexivity. Qed.

Lemma uc_itn sig :
  (forall e c v, get_c v (update_census sig e delta c)
                 = itn (occ (uses (rename_all_ns sig e)) v) g (get_c v c)) /\
  (forall B c v, get_c v (update_census_f sig B delta c)
                 = itn (occ (uses_funs (rename_all_fun_ns sig B)) v) g (get_c v c)).
Proof.
  apply exp_fundefs_ind; cbn [update_census update_census_f rename_all_ns rename_all_fun_ns uses uses_funs].
  - intros x t ys e H c v. rewrite H, ucl_itn, count_occ_app, <- itn_add. apply itn_eq. lia.
  - intros x l H c v. rewrite occ_cons.
    change [apply_r sig x] with (apply_r_list sig [x]).
    rewrite Nat.add_comm, itn_add, <- ucl_itn.
    generalize (update_census_list sig [x] delta c). intro c0.
    induction H as [|[k e] l He _ IH]; cbn [fold_right map flat_map snd count_occ]; [reflexivity|].
    cbn [snd] in He. rewrite He, IH, count_occ_app, <- itn_add. reflexivity.
  - intros x t n y e H c v. rewrite H, ucl_itn, occ_cons, <- itn_add.
    change (apply_r_list sig [y]) with [apply_r sig y]. apply itn_eq. lia.
  - intros x f t ys e H c v. rewrite H, ucl_itn, occ_cons, count_occ_app, <- itn_add.
    change (apply_r_list sig (f :: ys)) with (apply_r sig f :: apply_r_list sig ys).
    rewrite (occ_cons (apply_r sig f) (apply_r_list sig ys)). apply itn_eq. lia.
  - intros B e H H0 c v. rewrite H0, H, count_occ_app, <- itn_add. apply itn_eq. lia.
  - intros f t ys c v. rewrite ucl_itn. reflexivity.
  - intros x p e H c v. apply H.
  - intros x p ys e H c v. rewrite H, ucl_itn, count_occ_app, <- itn_add. apply itn_eq. lia.
  - intros x c v. rewrite ucl_itn. reflexivity.
  - intros f t xs e B H H0 c v. rewrite H0, H, count_occ_app, <- itn_add. apply itn_eq. lia.
  - reflexivity.
Qed.
End Generic.

Lemma inc_list sig ys c v :
  get_c v (update_census_list sig ys (fun v c => get_c v c + 1) c) = get_c v c + occ (apply_r_list sig ys) v.
Proof. rewrite (ucl_itn (fun k => k + 1)). apply itn_S. Qed.

Lemma dec_list sig ys c v :
  get_c v (dec_census_list sig ys c) = get_c v c - occ (apply_r_list sig ys) v.
Proof. unfold dec_census_list. rewrite (ucl_itn (fun k => k - 1)). apply itn_P. Qed.

Lemma inc_exp sig e c v :
  get_c v (update_census sig e (fun v c => get_c v c + 1) c)
  = get_c v c + occ (uses (rename_all_ns sig e)) v.
Proof. rewrite (proj1 (uc_itn (fun k => k + 1) sig)). apply itn_S. Qed.

Lemma dec_exp sig e c v :
  get_c v (dec_census sig e c) = get_c v c - occ (uses (rename_all_ns sig e)) v.
Proof. unfold dec_census. rewrite (proj1 (uc_itn (fun k => k - 1) sig)). apply itn_P. Qed.

Lemma apply_r_nil x : apply_r [] x = x.
Proof. reflexivity. Qed.

Lemma apply_r_list_nil ys : apply_r_list [] ys = ys.
Proof. unfold apply_r_list. rewrite <- (map_id ys) at 2. apply map_ext. reflexivity. Qed.

Lemma rename_nil : (forall e, rename_all_ns [] e = e) /\ (forall B, rename_all_fun_ns [] B = B).
Proof.
  apply exp_fundefs_ind; intros; cbn [rename_all_ns rename_all_fun_ns]; rewrite ?apply_r_list_nil, ?apply_r_nil;
    try congruence.
  f_equal. match goal with F : Forall _ _ |- _ => induction F as [|[k e] l He _ IH] end;
    cbn [map]; [reflexivity|].
  cbn [snd] in He. congruence.
Qed.

Lemma uses_rename sig :
  (forall e, uses (rename_all_ns sig e) = map (apply_r sig) (uses e)) /\
  (forall B, uses_funs (rename_all_fun_ns sig B) = map (apply_r sig) (uses_funs B)).
Proof.
  apply exp_fundefs_ind; intros; cbn [rename_all_ns rename_all_fun_ns uses uses_funs map];
    rewrite ?map_app; unfold apply_r_list; cbn [map];
    try (repeat match goal with H : _ = _ |- _ => rewrite H end; reflexivity).
  f_equal. match goal with F : Forall _ _ |- _ => induction F as [|[k e] l He _ IH] end;
    cbn [map flat_map snd]; [reflexivity|].
  cbn [snd] in He. rewrite map_app, He, IH. reflexivity.
Qed.

Scheme exp_ctx_mut := Induction for exp_ctx Sort Prop
  with fundefs_ctx_mut := Induction for fundefs_ctx Sort Prop.
Combined Scheme ctx_mut_ind from exp_ctx_mut, fundefs_ctx_mut.

(** The uses in a context do not depend on what is in the hole. *)
Lemma uses_ctx :
  (forall C, exists l, forall e v, occ (uses (app_ctx_f C e)) v = occ l v + occ (uses e) v) /\
  (forall C, exists l, forall e v, occ (uses_funs (app_f_ctx_f C e)) v = occ l v + occ (uses e) v).
Proof.
  apply ctx_mut_ind; cbn [app_ctx_f app_f_ctx_f uses uses_funs].
  - exists []. reflexivity.
  - intros x t l C [m E]. exists (l ++ m). intros. rewrite !count_occ_app, E. lia.
  - intros x t n y C [m E]. exists (y :: m). intros e v'. rewrite (occ_cons y m), occ_cons, E. lia.
  - intros x p C [m E]. exists m. assumption.
  - intros x p l C [m E]. exists (l ++ m). intros. rewrite !count_occ_app, E. lia.
  - intros x f t l C [m E]. exists (f :: l ++ m). intros e v'.
    rewrite (occ_cons f (l ++ m)), occ_cons, !count_occ_app, E. lia.
  - intros x l t C [m E] l0.
    exists (x :: flat_map (fun p => uses (snd p)) l ++ m ++ flat_map (fun p => uses (snd p)) l0).
    intros e v'. rewrite flat_map_app. cbn [flat_map snd].
    rewrite occ_cons, (occ_cons x (_ ++ m ++ _)), !count_occ_app, E. lia.
  - intros B C [m E]. exists (uses_funs B ++ m). intros. rewrite !count_occ_app, E. lia.
  - intros C [m E] e0. exists (m ++ uses e0). intros. rewrite !count_occ_app, E. lia.
  - intros f t l C [m E] B. exists (m ++ uses_funs B). intros. rewrite !count_occ_app, E. lia.
  - intros f t l e0 C [m E]. exists (uses e0 ++ m). intros. rewrite !count_occ_app, E. lia.
Qed.

(** ** Deleting the branches that are not taken *)
Lemma dec_all_case sig cl : forall c v,
  get_c v (dec_census_all_case sig cl c)
  = get_c v c - occ (flat_map (fun p => uses (rename_all_ns sig (snd p))) cl) v.
Proof.
  induction cl as [|[k e] cl IH]; intros c v; cbn [dec_census_all_case flat_map snd].
  - cbn. lia.
  - rewrite dec_exp, IH, count_occ_app. lia.
Qed.

Lemma dec_case sig t : forall cl e c v n,
  findtag cl t = Some e ->
  get_c v c = n + occ (flat_map (fun p => uses (rename_all_ns sig (snd p))) cl) v ->
  get_c v (dec_census_case sig cl t c) = n + occ (uses (rename_all_ns sig e)) v.
Proof.
  induction cl as [|[k b] cl IH]; intros e c v n F E; cbn [findtag] in F; [discriminate|].
  cbn [dec_census_case flat_map snd] in *. rewrite count_occ_app in E.
  destruct (Pos.eq_dec k t).
  - injection F as ->. rewrite dec_all_case. lia.
  - rewrite dec_exp. rewrite (IH e c v (n + occ (uses (rename_all_ns sig b)) v)); auto; lia.
Qed.

(** ** Dead functions *)
Lemma precontract_counts sig : forall B c B' c' n v,
  precontractfun sig c B = (B', c') ->
  (forall v, get_c v c >= occ (uses_funs (rename_all_fun_ns sig B)) v) ->
  get_c v c = n + occ (uses_funs (rename_all_fun_ns sig B)) v ->
  get_c v c' = n + occ (uses_funs (rename_all_fun_ns sig B')) v.
Proof.
  induction B as [f t ys e B IH|]; intros c B' c' n v E G H; cbn [precontractfun] in E.
  - cbn [rename_all_fun_ns uses_funs] in *. rewrite count_occ_app in H.
    destruct (get_c f c) eqn:Ef.
    + eapply IH in E; eauto.
      * intros w. specialize (G w). rewrite count_occ_app in G. rewrite dec_exp. lia.
      * rewrite dec_exp. lia.
    + destruct (precontractfun sig c B) as [B'' c''] eqn:EB. injection E as <- <-.
      cbn [rename_all_fun_ns uses_funs]. rewrite count_occ_app.
      rewrite (IH _ _ _ (n + occ (uses (rename_all_ns sig e)) v) v EB).
      * lia.
      * intros w. specialize (G w). rewrite count_occ_app in G. lia.
      * lia.
  - injection E as <- <-. assumption.
Qed.

Lemma precontract_mono sig : forall B c B' c' v,
  precontractfun sig c B = (B', c') -> get_c v c' <= get_c v c.
Proof.
  induction B as [f t ys e B IH|]; intros c B' c' v E; cbn [precontractfun] in E.
  - destruct (get_c f c).
    + apply (IH _ _ _ v) in E. rewrite dec_exp in E. lia.
    + destruct (precontractfun sig c B) as [B'' c''] eqn:EB. injection E as <- <-. eauto.
  - injection E as <- <-. lia.
Qed.

Lemma precontract_drops sig : forall B c B' c' f,
  precontractfun sig c B = (B', c') ->
  In f (fnames B) -> ~ In f (fnames B') -> get_c f c' = 0.
Proof.
  induction B as [g t ys e B IH|]; intros c B' c' f E I N; cbn [precontractfun fnames] in *; [|destruct I].
  destruct (get_c g c) eqn:Eg.
  - destruct I as [<-|I]; eauto.
    pose proof (precontract_mono _ _ _ _ _ g E) as L. rewrite dec_exp in L. lia.
  - destruct (precontractfun sig c B) as [B'' c''] eqn:EB. injection E as <- <-.
    cbn [fnames In] in N. destruct I as [<-|I]; [tauto|]. eapply IH; eauto.
Qed.

Lemma precontract_kept sig : forall B c B' c' f d,
  precontractfun sig c B = (B', c') -> NoDup (fnames B) ->
  find_def f B' = Some d -> find_def f B = Some d.
Proof.
  induction B as [g t ys e B IH|]; intros c B' c' f d E ND F; cbn [precontractfun fnames find_def] in *.
  - inversion ND; subst. destruct (get_c g c) eqn:Eg.
    + pose proof (IH _ _ _ _ _ E H2 F) as F'. destruct (Pos.eq_dec f g) as [->|]; auto.
      exfalso. apply H1. clear - F'. revert F'. generalize B. induction B0; cbn; [|discriminate].
      destruct (Pos.eq_dec g v); auto.
    + destruct (precontractfun sig c B) as [B'' c''] eqn:EB. injection E as <- <-. cbn [find_def] in F.
      destruct (Pos.eq_dec f g); eauto.
  - injection E as <- <-. assumption.
Qed.

(** ** Inlining *)

(** parameters [xs], arguments [ys]: the map from the one to the other *)
Definition bind_args (xs ys : list var) : subst := set_list (combine xs ys) [].

Lemma bind_args_out xs : forall ys x, ~ In x xs -> apply_r (bind_args xs ys) x = x.
Proof.
  unfold apply_r. induction xs as [|a xs IH]; intros [|b ys] x N; cbn; auto.
  cbn [In] in N. destruct (Pos.eq_dec x a) as [->|]; [tauto|]. apply IH. tauto.
Qed.

(** the uses of [x] moved to [y] *)
Definition mv (x y z : var) : var := if Pos.eq_dec z x then y else z.

Lemma bind_args_cons x xs y ys z : ~ In y xs ->
  apply_r (bind_args (x :: xs) (y :: ys)) z = apply_r (bind_args xs ys) (mv x y z).
Proof.
  intros N. unfold mv. destruct (Pos.eq_dec z x) as [->|Nz].
  - rewrite (bind_args_out xs ys y); auto. unfold apply_r, bind_args, set_list.
    cbn [combine fold_right fst snd]. rewrite get_set_same. reflexivity.
  - unfold apply_r, bind_args, set_list. cbn [combine fold_right fst snd].
    rewrite get_set_other; auto.
Qed.

Lemma occ_mv x y l v : x <> y ->
  occ (map (mv x y) l) v =
  if Pos.eq_dec v y then occ l y + occ l x else if Pos.eq_dec v x then 0 else occ l v.
Proof.
  intros N. induction l as [|z l IH]; cbn [map count_occ].
  - destruct (Pos.eq_dec v y); auto. destruct (Pos.eq_dec v x); auto.
  - rewrite IH. unfold mv.
    destruct (Pos.eq_dec z x), (Pos.eq_dec v y), (Pos.eq_dec v x), (Pos.eq_dec z y);
      subst; try congruence;
      repeat match goal with |- context [Pos.eq_dec ?a ?b] => destruct (Pos.eq_dec a b); try congruence end;
      lia.
Qed.

Lemma inlined_counts xs : forall ys rest B c,
  length ys = length xs -> NoDup xs ->
  (forall x, In x xs -> ~ In x ys /\ ~ In x rest) ->
  (forall v, get_c v c = occ rest v + occ ys v + occ B v) ->
  forall v, get_c v (update_count_inlined ys xs c)
            = occ rest v + occ (map (apply_r (bind_args xs ys)) B) v.
Proof.
  induction xs as [|x xs IH]; intros [|y ys] rest B c L ND D H v; try discriminate.
  - cbn [update_count_inlined]. rewrite H. cbn [count_occ]. replace (map (apply_r (bind_args [] [])) B) with B.
    + lia.
    + symmetry. apply map_id.
  - inversion ND; subst. cbn [update_count_inlined].
    assert (Dy : ~ In y xs). { intro I. apply (proj1 (D y (or_intror I))). left. reflexivity. }
    assert (Nxy : x <> y). { intros ->. apply (proj1 (D y (or_introl eq_refl))). left. reflexivity. }
    rewrite (IH ys rest (map (mv x y) B)); auto.
    + rewrite map_map. f_equal. f_equal. apply map_ext. intro z. symmetry. apply bind_args_cons. assumption.
    + intros z I. destruct (D z (or_intror I)) as [D1 D2]. cbn [In] in D1. tauto.
    + intro w. rewrite !get_c_set, (occ_mv x y B w Nxy).
      pose proof (H w) as Hw. pose proof (H x) as Hx. pose proof (H y) as Hy.
      destruct (D x (or_introl eq_refl)) as [D1 D2]. cbn [In] in D1.
      apply (proj1 (@count_occ_not_In var Pos.eq_dec rest x)) in D2.
      assert (D3 : ~ In x ys) by tauto. apply (proj1 (@count_occ_not_In var Pos.eq_dec ys x)) in D3.
      cbn [count_occ] in Hw, Hx, Hy.
      destruct (Pos.eq_dec y y); try congruence. destruct (Pos.eq_dec y x); try congruence.
      destruct (Pos.eq_dec w y) as [->|Nw].
      * destruct (Pos.eq_dec y y); try congruence. lia.
      * destruct (Pos.eq_dec w x) as [->|Nx].
        -- lia.
        -- destruct (Pos.eq_dec y w); try congruence.
Qed.

Lemma drop_fun_uses f : forall B t xs b v,
  find_def f B = Some (t, xs, b) ->
  occ (uses_funs B) v = occ (uses_funs (drop_fun f B)) v + occ (uses b) v.
Proof.
  induction B as [g t' ys e B IH|]; intros t xs b v F; cbn [find_def drop_fun uses_funs] in *; [|discriminate].
  rewrite count_occ_app. destruct (Pos.eq_dec f g).
  - injection F as -> -> ->. lia.
  - cbn [uses_funs]. rewrite count_occ_app, (IH _ _ _ _ F). lia.
Qed.

(** ** A body put in place of a call that is not in tail position *)
Lemma letapp_uses : forall b x C x', inline_letapp b x = Some (C, x') ->
  (forall e v, occ (uses (app_ctx_f C e)) v + occ [x'] v = occ (uses b) v + occ (uses e) v) \/
  (x' = x /\ forall e v, occ (uses (app_ctx_f C e)) v = occ (uses b) v + occ (uses e) v).
Proof.
  induction b using exp_ind2 with (P0 := fun _ => True); try exact Logic.I;
    intros z C x' E; cbn [inline_letapp] in E; try discriminate;
    try (destruct (inline_letapp b z) as [[C1 x1]|] eqn:IE; [|discriminate E]; injection E as <- <-;
         destruct (ltac:(first [exact (IHb z C1 x1 IE) | exact (IHb0 z C1 x1 IE)])) as [H|[-> H]]; [left|right; split; [reflexivity|]];
         intros e0 v0; specialize (H e0 v0); cbn [app_ctx_f uses];
         rewrite ?count_occ_app; cbn [count_occ] in *; rewrite ?count_occ_app;
         repeat match goal with |- context [Pos.eq_dec ?a ?b] => destruct (Pos.eq_dec a b) end; lia).
  - injection E as <- <-. right. split; auto. intros e0 v0. cbn [app_ctx_f uses].
    match goal with |- context [count_occ _ (?f :: ?l ++ ?m) _] =>
      change (f :: l ++ m) with ((f :: l) ++ m) end.
    rewrite count_occ_app. lia.
  - injection E as <- <-. left. intros e0 v0. cbn [app_ctx_f uses]. lia.
Qed.

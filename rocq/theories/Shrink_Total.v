(** * The shrink reducer always answers *)
From Coq Require Import ZArith NArith PArith List Lia Bool Arith.
From Verif Require Import ANF_Syntax ANF_Subst Shrink_Census Shrink_Model.
Import ListNotations.

Definition ble (a b : b_map) : Prop := forall f, get_b f a = true -> get_b f b = true.

Lemma ble_refl a : ble a a.
Proof. intros f H. exact H. Qed.
Lemma ble_trans a b c : ble a b -> ble b c -> ble a c.
Proof. intros H K f L. auto. Qed.
Lemma get_b_set f b im g : get_b g (set f b im) = if Pos.eq_dec g f then b else get_b g im.
Proof. unfold get_b. rewrite get_set. destruct (Pos.eq_dec g f); reflexivity. Qed.
Lemma ble_set f im : ble im (set f true im).
Proof. intros g H. rewrite get_b_set. destruct (Pos.eq_dec g f); auto. Qed.

Lemma cases_im fcon : (forall c e im e' s c' im', fcon c e im = Some (e', s, c', im') -> ble im im') ->
  forall cl c im cl' s c' im', contractcases fcon c im cl = Some (cl', s, c', im') -> ble im im'.
Proof.
  intros H. induction cl as [|[y e] cl IH]; intros c im cl' s c' im' E; cbn in E.
  - injection E as <- <- <- <-. apply ble_refl.
  - destruct (fcon c e im) as [[[[e1 s1] c1] i1]|] eqn:E1; [|discriminate].
    destruct (contractcases fcon c1 i1 cl) as [[[[l2 s2] c2] i2]|] eqn:E2; [|discriminate].
    injection E as <- <- <- <-. eapply ble_trans; eauto.
Qed.

Lemma post_im fcon sig : (forall c e im e' s c' im', fcon c e im = Some (e', s, c', im') -> ble im im') ->
  forall B c im s0 B' s c' im', postcontractfun fcon sig c im B s0 = Some (B', s, c', im') -> ble im im'.
Proof.
  intros H. induction B as [f t ys e B IH|]; intros c im s0 B' s c' im' E; cbn in E.
  - destruct (get_b f im); [eauto|]. destruct (get_c f c); [eauto|].
    destruct (fcon c e im) as [[[[e1 s1] c1] i1]|] eqn:E1; [|discriminate].
    destruct (postcontractfun fcon sig c1 i1 B s0) as [[[[l2 s2] c2] i2]|] eqn:E2; [|discriminate].
    injection E as <- <- <- <-. eapply ble_trans; eauto.
  - injection E as <- <- <- <-. apply ble_refl.
Qed.

Lemma incr_inv A (r : option (shrunk A)) e s c im : incr_steps r = Some (e, s, c, im) ->
  exists s', r = Some (e, s', c, im) /\ s = s' + 1.
Proof. destruct r as [[[[e1 s1] c1] i1]|]; cbn; [|discriminate]. intro H. injection H as <- <- <- <-. eauto. Qed.

Lemma contract_im : forall n sig c e sub im e' s c' im',
  contract n sig c e sub im = Some (e', s, c', im') -> ble im im'.
Proof.
  induction n as [|n IH]; intros sig c e sub im e' s c' im' E; [discriminate|].
  destruct e as [x t ys e|v cl|v t i y e|x f t ys e|B e|f t ys|x p e|x p ys e|v]; cbn [contract] in E; cbv zeta in E.
  - destruct (get_c x c).
    + apply incr_inv in E as (s' & E & _). eauto.
    + destruct (contract n sig c e _ im) as [[[[e1 s1] c1] i1]|] eqn:E1; [|discriminate].
      destruct (get_c x c1); injection E as <- <- <- <-; eauto.
  - destruct (match get (apply_r sig v) sub with Some (SVconstr t _) => _ | _ => None end) as [[t k]|].
    + apply incr_inv in E as (s' & E & _). eauto.
    + destruct (contractcases _ c im cl) as [[[[l1 s1] c1] i1]|] eqn:E1; [|discriminate].
      injection E as <- <- <- <-. eapply cases_im; [|exact E1]. cbn beta. intros. eauto.
  - destruct (get_c v c).
    + apply incr_inv in E as (s' & E & _). eauto.
    + destruct (match get (apply_r sig y) sub with Some (SVconstr t' ys) => nthN ys i | _ => None end) as [yn|].
      * apply incr_inv in E as (s' & E & _). eauto.
      * destruct (contract n sig c e sub im) as [[[[e1 s1] c1] i1]|] eqn:E1; [|discriminate].
        destruct (get_c v c1); injection E as <- <- <- <-; eauto.
  - set (keep := match contract n sig c e sub im with Some _ => _ | None => None end) in E.
    assert (K : keep = Some (e', s, c', im') -> ble im im').
    { unfold keep. destruct (contract n sig c e sub im) as [[[[e1 s1] c1] i1]|] eqn:E1; [|discriminate].
      intro K. injection K as <- <- <- <-. eauto. }
    clearbody keep. destruct (get_c (apply_r sig f) c) as [|[|]]; [auto| |auto].
    destruct (get (apply_r sig f) sub) as [[|t' xs m]|]; [auto| |auto].
    destruct (_ && _ && _); [|auto]. destruct (inline_letapp m x) as [[C x']|]; [|auto].
    apply incr_inv in E as (s' & E & _). apply IH in E. eapply ble_trans; [|exact E]. apply ble_set.
  - destruct (precontract sig c sub B) as [[B1 c1] sub1].
    destruct (contract n sig c1 e sub1 im) as [[[[e2 s2] c2] i2]|] eqn:E1; [|discriminate].
    destruct (postcontractfun _ sig c2 i2 B1 0) as [[[[B3 s3] c3] i3]|] eqn:E2; [|discriminate].
    assert (L : ble im i3).
    { eapply ble_trans; [eapply IH; exact E1|]. eapply post_im; [|exact E2]. cbn beta. intros. eauto. }
    destruct B3; injection E as <- <- <- <-; exact L.
  - assert (K : Some (Eapp (apply_r sig f) t (apply_r_list sig ys), 0, c, im) = Some (e', s, c', im') -> ble im im').
    { intro K. injection K as <- <- <- <-. apply ble_refl. }
    destruct (get_c (apply_r sig f) c) as [|[|]]; [auto| |auto].
    destruct (get (apply_r sig f) sub) as [[|t' xs m]|]; [auto| |auto].
    destruct (_ && _); [|auto].
    apply incr_inv in E as (s' & E & _). apply IH in E. eapply ble_trans; [|exact E]. apply ble_set.
  - destruct (contract n sig c e sub im) as [[[[e1 s1] c1] i1]|] eqn:E1; [|discriminate].
    injection E as <- <- <- <-. eauto.
  - destruct (contract n sig c e sub im) as [[[[e1 s1] c1] i1]|] eqn:E1; [|discriminate].
    injection E as <- <- <- <-. eauto.
  - injection E as <- <- <- <-. apply ble_refl.
Qed.

(** ** Sizes *)
Lemma sub_inl_set f v sub im :
  sub_inl_size (set f v sub) im = (if get_b f im then 0 else svalue_size v) + sub_inl_size sub im.
Proof. reflexivity. Qed.

Lemma sub_inl_le sub : forall a b, ble a b -> sub_inl_size sub b <= sub_inl_size sub a.
Proof.
  induction sub as [|[f v] sub IH]; intros a b H; cbn; [lia|].
  specialize (IH a b H). unfold sub_inl_size in IH. unfold svalue_inl_size at 1 3. cbn [fst snd]. destruct (get_b f a) eqn:E.
  - rewrite (H f E). lia.
  - destruct (get_b f b); lia.
Qed.

Lemma sub_inl_fun sub im : forall f t xs m, get f sub = Some (SVfun t xs m) -> get_b f im = false ->
  term_size m + sub_inl_size sub (set f true im) <= sub_inl_size sub im.
Proof.
  induction sub as [|[g v] sub IH]; intros f t xs m G N; cbn in G; [discriminate|].
  cbn [sub_inl_size fold_right]. fold (sub_inl_size sub im). fold (sub_inl_size sub (set f true im)).
  unfold svalue_inl_size. cbn [fst snd]. rewrite get_b_set.
  pose proof (sub_inl_le sub im (set f true im) (ble_set f im)).
  destruct (Pos.eq_dec f g) as [<-|NE].
  - injection G as ->. rewrite N. destruct (Pos.eq_dec f f); [|congruence]. cbn. lia.
  - specialize (IH f t xs m G N). destruct (Pos.eq_dec g f); [congruence|]. lia.
Qed.

Lemma rename_size sg : (forall e, term_size (rename_all_ns sg e) = term_size e) /\
  (forall B, funs_size (rename_all_fun_ns sg B) = funs_size B).
Proof.
  apply exp_fundefs_ind; cbn; intros; try congruence.
  f_equal. induction H as [|[t e] l Hp F IHl]; cbn in *; [reflexivity|]. rewrite IHl, Hp. reflexivity.
Qed.

Lemma letapp_size : forall m z C x' ec, inline_letapp m z = Some (C, x') ->
  term_size (app_ctx_f C ec) <= term_size m + term_size ec.
Proof.
  induction m using exp_ind2 with (P0 := fun _ => True); try exact I; intros z C x' ec IL; cbn [inline_letapp] in IL;
    try (destruct (inline_letapp m z) as [[C1 x1]|] eqn:IE; [|discriminate IL]; injection IL as <- <-;
         cbn; first [specialize (IHm _ _ _ ec IE)|specialize (IHm0 _ _ _ ec IE)]; lia).
  - discriminate.
  - injection IL as <- <-. cbn. lia.
  - injection IL as <- <-. cbn. lia.
Qed.

Lemma pre_size sig im sub : forall B c B' c' sub', precontract sig c sub B = (B', c', sub') ->
  sub_inl_size sub' im <= funs_size B + sub_inl_size sub im /\ funs_size B' <= funs_size B.
Proof.
  induction B as [f t ys e B IH|]; intros c B' c' sub' E; cbn in E.
  - destruct (get_c f c).
    + apply IH in E. cbn. lia.
    + destruct (precontract sig c sub B) as [[B1 c1] sub1] eqn:E1. injection E as <- <- <-.
      apply IH in E1. rewrite sub_inl_set. cbn. destruct (get_b f im); lia.
  - injection E as <- <- <-. cbn. lia.
Qed.

Lemma findtag_size cl t k : findtag cl t = Some k ->
  term_size k <= fold_right (fun (p : ctor_tag * exp) n => let (k, e) := p in n + term_size e) 0 cl.
Proof.
  induction cl as [|[c e] cl IH]; cbn; [discriminate|]. destruct (Pos.eq_dec c t).
  - intro H. injection H as ->. lia.
  - intro H. specialize (IH H). lia.
Qed.

Lemma cases_total fcon M : (forall c e im, term_size e <= M -> fcon c e im <> None) ->
  forall cl c im, fold_right (fun (p : ctor_tag * exp) n => let (k, e) := p in n + term_size e) 0 cl <= M ->
    contractcases fcon c im cl <> None.
Proof.
  intros H. induction cl as [|[y e] cl IH]; intros c im L; cbn in *; [discriminate|].
  destruct (fcon c e im) as [[[[e1 s1] c1] i1]|] eqn:E1; [|exfalso; apply (H c e im); [lia|exact E1]].
  specialize (IH c1 i1 ltac:(lia)). destruct (contractcases fcon c1 i1 cl) as [[[[l2 s2] c2] i2]|]; congruence.
Qed.

Lemma contract_total : forall n sig c e sub im, term_sub_inl_size e sub im < n -> contract n sig c e sub im <> None.
Proof.
  unfold term_sub_inl_size.
  assert (INC : forall A (r : option (shrunk A)), r <> None -> incr_steps r <> None).
  { intros A [[[[e s] c] i]|]; cbn; congruence. }
  induction n as [|n IH]; intros sig c e sub im L; [lia|].
  assert (CT : forall M, M + sub_inl_size sub im < n -> forall cl c im',
    ble im im' -> fold_right (fun (p : ctor_tag * exp) n => let (k, e) := p in n + term_size e) 0 cl <= M ->
    contractcases (fun count e im => contract n sig count e sub im) c im' cl <> None).
  { intros M HM. induction cl as [|[y e0] cl IHl]; intros c0 im' B LM; cbn in *; [discriminate|].
    pose proof (sub_inl_le sub _ _ B).
    destruct (contract n sig c0 e0 sub im') as [[[[e1 s1] c1] i1]|] eqn:E1; [|exfalso; eapply IH; [|exact E1]; lia].
    specialize (IHl c1 i1 (ble_trans _ _ _ B (contract_im _ _ _ _ _ _ _ _ _ _ E1)) ltac:(lia)).
    destruct (contractcases _ c1 i1 cl) as [[[[l2 s2] c2] i2]|]; congruence. }
  assert (PT : forall B c im' s0, ble im im' -> funs_size B + sub_inl_size sub im <= n ->
    postcontractfun (fun count e im => contract n sig count e sub im) sig c im' B s0 <> None).
  { induction B as [f t ys e0 B IHB|]; intros c0 im' s0 BL LM; cbn in *; [|discriminate].
    pose proof (sub_inl_le sub _ _ BL).
    destruct (get_b f im'); [apply IHB; auto; lia|]. destruct (get_c f c0); [apply IHB; auto; lia|].
    destruct (contract n sig c0 e0 sub im') as [[[[e1 s1] c1] i1]|] eqn:E1; [|exfalso; eapply IH; [|exact E1]; lia].
    specialize (IHB c1 i1 s0 (ble_trans _ _ _ BL (contract_im _ _ _ _ _ _ _ _ _ _ E1)) ltac:(lia)).
    destruct (postcontractfun _ sig c1 i1 B s0) as [[[[l2 s2] c2] i2]|]; congruence. }
  destruct e as [x t ys e|v cl|v t i y e|x f t ys e|B e|f t ys|x p e|x p ys e|v]; cbn [contract]; cbv zeta; cbn [term_size] in L.
  - destruct (get_c x c); [apply INC; apply IH; lia|].
    assert (T : contract n sig c e (set x (SVconstr t ys) sub) im <> None).
    { apply IH. rewrite sub_inl_set. cbn. destruct (get_b x im); lia. }
    destruct (contract n sig c e _ im) as [[[[e1 s1] c1] i1]|]; [|congruence]. destruct (get_c x c1); discriminate.
  - destruct (match get (apply_r sig v) sub with Some (SVconstr t _) => _ | _ => None end) as [[t k]|] eqn:E.
    + apply INC. apply IH. destruct (get (apply_r sig v) sub) as [[t' ys|]|]; try discriminate.
      destruct (findtag cl t') eqn:FT; [|discriminate]. injection E as -> ->. apply findtag_size in FT. lia.
    + pose proof (CT _ ltac:(apply le_S_n; exact L) cl c im (ble_refl im) (le_n _)) as T.
      destruct (contractcases _ c im cl) as [[[[l2 s2] c2] i2]|]; congruence.
  - destruct (get_c v c); [apply INC; apply IH; lia|].
    destruct (match get (apply_r sig y) sub with Some (SVconstr t' ys) => nthN ys i | _ => None end) as [yn|].
    + apply INC. apply IH. lia.
    + pose proof (IH sig c e sub im ltac:(lia)) as T.
      destruct (contract n sig c e sub im) as [[[[e1 s1] c1] i1]|]; [|congruence]. destruct (get_c v c1); discriminate.
  - set (keep := match contract n sig c e sub im with Some _ => _ | None => None end).
    assert (K : keep <> None).
    { unfold keep. pose proof (IH sig c e sub im ltac:(lia)) as T.
      destruct (contract n sig c e sub im) as [[[[e1 s1] c1] i1]|]; congruence. }
    clearbody keep. destruct (get_c (apply_r sig f) c) as [|[|]]; [auto| |auto].
    destruct (get (apply_r sig f) sub) as [[|t' xs m]|] eqn:G; [auto| |auto].
    destruct (_ && _ && _) eqn:C; [|auto]. destruct (inline_letapp m x) as [[Ci x']|] eqn:IL; [|auto].
    apply INC. apply IH. apply andb_true_iff in C as [_ C]. apply negb_true_iff in C.
    pose proof (sub_inl_fun _ _ _ _ _ _ G C). pose proof (letapp_size _ _ _ _ (rename_all_ns (set x x' []) e) IL) as S.
    rewrite (proj1 (rename_size (set x x' []))) in S. lia.
  - destruct (precontract sig c sub B) as [[B1 c1] sub1] eqn:EP. destruct (pre_size sig im sub _ _ _ _ _ EP) as [P1 P2].
    pose proof (IH sig c1 e sub1 im ltac:(lia)) as T.
    destruct (contract n sig c1 e sub1 im) as [[[[e2 s2] c2] i2]|] eqn:E1; [|congruence].
    pose proof (PT B1 c2 i2 0 (contract_im _ _ _ _ _ _ _ _ _ _ E1) ltac:(lia)) as T2.
    destruct (postcontractfun _ sig c2 i2 B1 0) as [[[[B3 s3] c3] i3]|]; [|congruence]. destruct B3; discriminate.
  - destruct (get_c (apply_r sig f) c) as [|[|]]; [discriminate| |discriminate].
    destruct (get (apply_r sig f) sub) as [[|t' xs m]|] eqn:G; [discriminate| |discriminate].
    destruct (_ && _) eqn:C; [|discriminate]. apply INC. apply IH.
    apply andb_true_iff in C as [_ C]. apply andb_true_iff in C as [_ C]. apply negb_true_iff in C.
    pose proof (sub_inl_fun _ _ _ _ _ _ G C). lia.
  - pose proof (IH sig c e sub im ltac:(lia)) as T.
    destruct (contract n sig c e sub im) as [[[[e1 s1] c1] i1]|]; congruence.
  - pose proof (IH sig c e sub im ltac:(lia)) as T.
    destruct (contract n sig c e sub im) as [[[[e1 s1] c1] i1]|]; congruence.
  - discriminate.
Qed.

Lemma shrink_total e : shrink_top e <> None.
Proof.
  unfold shrink_top. cbv zeta.
  set (e0 := Efun _ _). pose proof (contract_total (depth e0) [] (init_census e0) e0 [] [] ltac:(unfold depth; lia)) as T.
  destruct (contract (depth e0) [] (init_census e0) e0 [] []) as [[[[e1 s1] c1] i1]|]; [|congruence].
  destruct e1 as [| | | |[? ? ? ? []|] ?| | | |]; discriminate.
Qed.

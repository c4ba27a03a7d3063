(** * Copies are copies *)
From Coq Require Import ZArith List Bool Arith Lia.
From Verif Require Import BW_Model BW_Spec.
Import ListNotations.

Lemma tree_ind2 : forall P : tree -> Prop, (forall z, P (TI z)) ->
  (forall tag ts, Forall P ts -> P (TN tag ts)) -> forall t, P t.
Proof.
  intros P HI HN. fix IH 1. intros [z|tag ts]; [apply HI|]. apply HN. induction ts; constructor; [apply IH|assumption].
Qed.

(** a value together with the addresses it uses *)
Inductive own (h : heap) : word -> tree -> list nat -> Prop :=
| ow_imm : forall z, own h (Imm z) (TI z) []
| ow_block : forall a tag ws ts A, h a = Some (tag, ws) -> owns h ws ts A -> own h (Cml a) (TN tag ts) (a :: A)
with owns (h : heap) : list word -> list tree -> list nat -> Prop :=
| os_nil : owns h [] [] []
| os_cons : forall w t A ws ts B, own h w t A -> owns h ws ts B -> owns h (w :: ws) (t :: ts) (A ++ B).

Scheme own_mind := Induction for own Sort Prop with owns_mind := Induction for owns Sort Prop.
Combined Scheme own_both from own_mind, owns_mind.

Lemma own_shows : forall h, (forall w t A, own h w t A -> shows h w t) /\
  (forall ws ts A, owns h ws ts A -> Forall2 (shows h) ws ts).
Proof. intros h. apply own_both; intros; econstructor; eassumption. Qed.

Lemma shows_own : forall h t w, shows h w t -> exists A, own h w t A.
Proof.
  intros h. apply (tree_ind2 (fun t => forall w, shows h w t -> exists A, own h w t A)).
  - intros z w H. inversion H; subst. exists []. constructor.
  - intros tag ts IH w H. inversion H as [|a tag' ws ts' E F]; subst.
    assert (X : exists A, owns h ws ts A).
    { clear - IH F. induction F as [|w t ws ts H _ I]; [exists []; constructor|]. inversion IH; subst.
      destruct (H2 w H) as [A OA]. destruct (I H3) as [B OB]. eexists. constructor; eassumption. }
    destruct X as [A OA]. eexists. econstructor; eassumption.
Qed.

Lemma own_agree : forall h h', (forall w t A, own h w t A -> (forall a, In a A -> h' a = h a) -> own h' w t A) /\
  (forall ws ts A, owns h ws ts A -> (forall a, In a A -> h' a = h a) -> owns h' ws ts A).
Proof.
  intros h h'. apply own_both.
  - intros z _. constructor.
  - intros a tag ws ts A E O IH H. econstructor; [rewrite H by (now left); exact E|]. apply IH. intros; apply H; now right.
  - intros _. constructor.
  - intros w t A ws ts B _ I1 _ I2 H. constructor; [apply I1|apply I2]; intros; apply H; apply in_or_app; tauto.
Qed.

Lemma owns_app : forall h ws ts A, owns h ws ts A -> forall ws' ts' B, owns h ws' ts' B ->
  owns h (ws ++ ws') (ts ++ ts') (A ++ B).
Proof.
  intros h ws ts A H. induction H as [|w t A ws ts B O _ IH]; intros ws' ts' C H'; [exact H'|].
  cbn [app]. rewrite <- app_assoc. constructor; [exact O|]. now apply IH.
Qed.

Lemma own_reach : forall h R,
  (forall w t A, own h w t A -> plain t -> (forall b, w = Cml b -> reach h R b) -> forall a, In a A -> reach h R a) /\
  (forall ws ts A, owns h ws ts A -> Forall plain ts -> (forall b, In (Cml b) ws -> reach h R b) -> forall a, In a A -> reach h R a).
Proof.
  intros h R. apply own_both.
  - intros z _ _ a [].
  - intros a tag ws ts A E O IH P H x [<-|X]; [now apply H|]. inversion P; subst. apply (IH H4); [|exact X].
    intros b B. eapply re_field; [apply H; reflexivity|exact E|assumption|exact B].
  - intros _ _ a [].
  - intros w t A ws ts B _ I1 _ I2 P H a X. inversion P; subst. apply in_app_or in X. destruct X as [X|X].
    + apply (I1 H2); [|exact X]. intros b ->. apply H. now left.
    + apply (I2 H3); [|exact X]. intros b Hb. apply H. now right.
Qed.

Lemma own_moved : forall h R h' f, keeps h R h' f ->
  (forall w t A, own h w t A -> plain t -> (forall b, w = Cml b -> reach h R b) -> own h' (ren f w) t (map f A)) /\
  (forall ws ts A, owns h ws ts A -> Forall plain ts -> (forall b, In (Cml b) ws -> reach h R b) ->
     owns h' (map (ren f) ws) ts (map f A)).
Proof.
  intros h R h' f [K _]. apply own_both.
  - intros z _ _. constructor.
  - intros a tag ws ts A E O IH P H. inversion P; subst. cbn [ren map]. econstructor.
    + rewrite K by (now apply H). rewrite E. cbn [option_map]. unfold moved. cbn [fst snd].
      rewrite (proj2 (Nat.ltb_lt _ _) H2). reflexivity.
    + apply IH; [assumption|]. intros b B. eapply re_field; [apply H; reflexivity|exact E|assumption|exact B].
  - intros _ _. constructor.
  - intros w t A ws ts B _ I1 _ I2 P H. inversion P; subst. cbn [map]. rewrite map_app. constructor.
    + apply I1; [assumption|]. intros b ->. apply H. now left.
    + apply I2; [assumption|]. intros b Hb. apply H. now right.
Qed.

Lemma ren_in : forall f b ws, In (Cml b) (map (ren f) ws) -> exists a, In (Cml a) ws /\ b = f a.
Proof.
  intros f b ws H. apply in_map_iff in H. destruct H as (w & E & I). destruct w; try discriminate E.
  cbn [ren] in E. injection E as <-. exists a. split; [exact I|reflexivity].
Qed.

Lemma reach_image : forall h R h' f, keeps h R h' f -> forall b, reach h' (map (ren f) R) b ->
  exists a, reach h R a /\ b = f a.
Proof.
  intros h R h' f [K _] b H. induction H as [b H|c b tag ws H (a & Ra & ->) E T I].
  - destruct (ren_in _ _ _ H) as (a & I & ->). exists a. split; [now constructor|reflexivity].
  - rewrite K in E by exact Ra. destruct (h a) as [[tag' ws']|] eqn:EA; [|discriminate E]. cbn [option_map] in E.
    unfold moved in E. cbn [fst snd] in E. injection E as <- <-. rewrite (proj2 (Nat.ltb_lt _ _) T) in I.
    destruct (ren_in _ _ _ I) as (d & D & ->). exists d. split; [|reflexivity]. eapply re_field; eassumption.
Qed.

Lemma reach_fwd : forall h R h' f, keeps h R h' f -> forall b, reach h R b -> reach h' (map (ren f) R) (f b).
Proof.
  intros h R h' f [K _] b H. induction H as [b H|c b tag ws H IH E T I].
  - constructor. change (Cml (f b)) with (ren f (Cml b)). now apply in_map.
  - eapply re_field; [exact IH|rewrite K, E by exact H; reflexivity|exact T|]. cbn [fst snd].
    rewrite (proj2 (Nat.ltb_lt _ _) T). change (Cml (f b)) with (ren f (Cml b)). now apply in_map.
Qed.

Lemma ren_ren : forall f g R, map (ren g) (map (ren f) R) = map (ren (fun x => g (f x))) R.
Proof. intros f g R. rewrite map_map. apply map_ext. intros []; reflexivity. Qed.

Lemma keeps_trans : forall h R h1 f h2 g, keeps h R h1 f -> keeps h1 (map (ren f) R) h2 g ->
  keeps h R h2 (fun x => g (f x)).
Proof.
  intros h R h1 f h2 g K1 K2. pose proof (reach_fwd _ _ _ _ K1) as FW. destruct K1 as [K1 I1]. destruct K2 as [K2 I2]. split.
  - intros b H. rewrite K2 by (now apply FW). rewrite K1 by exact H. destruct (h b) as [[tag ws]|]; [|reflexivity].
    cbn [option_map]. unfold moved. cbn [fst snd]. destruct (tag <? no_scan); [now rewrite ren_ren|reflexivity].
  - intros b c B C E. apply I1; [assumption..|]. apply I2; [now apply FW..|exact E].
Qed.

Lemma keeps_upd : forall h R h' f a blk, keeps h R h' f -> (forall b, reach h R b -> f b <> a) ->
  keeps h R (upd h' a blk) f.
Proof.
  intros h R h' f a blk [K I] N. split; [|exact I]. intros b H. unfold upd. rewrite (proj2 (Nat.eqb_neq _ _) (N b H)). now apply K.
Qed.

Lemma reach_mono : forall h R R', incl R R' -> forall b, reach h R b -> reach h R' b.
Proof. intros h R R' H b X. induction X; [constructor; now apply H|eapply re_field; eassumption]. Qed.

Lemma keeps_sub : forall h R R' h' f, incl R R' -> keeps h R' h' f -> keeps h R h' f.
Proof.
  intros h R R' h' f H [K I]. split.
  - intros b B. apply K. eapply reach_mono; eassumption.
  - intros b c B C. apply I; eapply reach_mono; eassumption.
Qed.

Lemma reach_upd : forall h R a blk, ~ reach h R a -> forall b, reach (upd h a blk) R b -> reach h R b.
Proof.
  intros h R a blk N b H. induction H as [b H|c b tag ws H IH E T I]; [now constructor|].
  unfold upd in E. destruct (Nat.eqb_spec c a) as [->|_]; [contradiction|]. eapply re_field; eassumption.
Qed.

Lemma set_app : forall l x r w, set_nth (l ++ x :: r) (length l) w = l ++ w :: r.
Proof. induction l; intros; cbn [app length set_nth]; [reflexivity|now rewrite IHl]. Qed.

Section RUN.
Variable src : heap.
Variable alloc : nat -> heap -> list word -> nat -> nat -> heap * (nat -> nat) * nat.
Hypothesis Halloc : allocates alloc.

(** copying [w] gives [t] in whatever world *)
Definition gives (cp : word -> world -> option (world * word)) (w : word) (t : tree) : Prop := forall st,
  exists st' f r A, cp w st = Some (st', r) /\ roots st' = map (ren f) (roots st) /\
    keeps (ml st) (roots st) (ml st') f /\ own (ml st') r t A /\
    (forall b, reach (ml st) (roots st) b -> ~ In (f b) A) /\ tick st' = tick st + blocks t.

Lemma fill_ok : forall cp b0 tag, tag < no_scan -> forall ws2 ts2, Forall2 (gives cp) ws2 ts2 -> Forall plain ts2 ->
  forall ws1 st a R dws ts1 B z, src b0 = Some (tag, ws1 ++ ws2) ->
  roots st = Cml a :: R -> ml st a = Some (tag, dws ++ repeat (Imm z) (length ws2)) -> length dws = length ws1 ->
  owns (ml st) dws ts1 B -> Forall plain ts1 -> ~ In a B -> (forall b, reach (ml st) R b -> b <> a /\ ~ In b B) ->
  exists st' f a' dws' B', fill src cp (Src b0) (length ws1) (length ws2) st = Some st' /\
    roots st' = Cml a' :: map (ren f) R /\ ml st' a' = Some (tag, dws') /\ owns (ml st') dws' (ts1 ++ ts2) B' /\ ~ In a' B' /\
    keeps (ml st) R (ml st') f /\ (forall b, reach (ml st) R b -> f b <> a' /\ ~ In (f b) B') /\
    tick st' = tick st + list_sum (map blocks ts2).
Proof.
  intros cp b0 tag T ws2 ts2 G. induction G as [|w t ws2 ts2 Gw _ IH]; intros PL ws1 st a R dws ts1 B z ES ER EA EL O P1 NB DJ.
  - exists st, (fun x => x), a, dws, B. cbn [length fill repeat map list_sum] in *. rewrite !app_nil_r in *.
    assert (RI : forall l, map (ren (fun x => x)) l = l).
    { intros l. rewrite <- (map_id l) at 2. apply map_ext. intros []; reflexivity. }
    assert (KI : keeps (ml st) R (ml st) (fun x => x)).
    { split; [|intros b c _ _ E; exact E]. intros b _. destruct (ml st b) as [[g ws]|]; [|reflexivity]. cbn [option_map]. unfold moved. cbn [fst snd].
      rewrite RI. now destruct (g <? no_scan). }
    split; [reflexivity|]. split; [now rewrite RI|]. split; [exact EA|]. split; [exact O|]. split; [exact NB|]. split; [exact KI|].
    split; [exact DJ|]. cbn. lia.
  - inversion PL as [|? ? Pt Pts]; subst. cbn [length fill].
    cbn [lookup]. rewrite ES. rewrite nth_error_app2 by lia. rewrite Nat.sub_diag. cbn [nth_error].
    destruct (Gw st) as (st1 & f & r & A & EC & ER1 & K & OR & DR & TK). rewrite EC.
    rewrite ER in *. cbn [map ren] in ER1. rewrite ER1.
    assert (RA : reach (ml st) (Cml a :: R) a) by (constructor; now left).
    assert (RD : forall b, In (Cml b) dws -> reach (ml st) (Cml a :: R) b).
    { intros b Hb. eapply re_field; [exact RA|exact EA|exact T|]. apply in_or_app. now left. }
    assert (RB : forall b, In b B -> reach (ml st) (Cml a :: R) b).
    { intros b Hb. exact (proj2 (own_reach (ml st) (Cml a :: R)) _ _ _ O P1 RD b Hb). }
    assert (SUB : incl R (Cml a :: R)) by (intros x Hx; now right).
    assert (EA1 : ml st1 (f a) = Some (tag, map (ren f) dws ++ Imm z :: repeat (Imm z) (length ws2))).
    { destruct K as [K _]. rewrite K, EA by exact RA. cbn [option_map]. unfold moved. cbn [fst snd].
      rewrite (proj2 (Nat.ltb_lt _ _) T), map_app. cbn [length repeat map ren]. do 4 f_equal.
      clear. induction (length ws2); [reflexivity|]. cbn [repeat map ren]. now f_equal. }
    unfold store. rewrite EA1.
    assert (L1 : length (map (ren f) dws) = length ws1) by (rewrite map_length; exact EL).
    rewrite (proj2 (Nat.ltb_lt (length ws1) _)) by (rewrite app_length, L1; cbn [length]; lia).
    assert (SN : forall x y q, set_nth (map (ren f) dws ++ x :: y) (length ws1) q = map (ren f) dws ++ q :: y).
    { intros x y q. rewrite <- L1. apply set_app. }
    rewrite SN.
    set (h2 := upd (ml st1) (f a) (tag, map (ren f) dws ++ r :: repeat (Imm z) (length ws2))).
    assert (NFA : ~ In (f a) (map f B)).
    { intros X. apply in_map_iff in X. destruct X as (b & E & Hb). apply NB.
      destruct K as [_ I]. rewrite <- (I b a (RB b Hb) RA E). exact Hb. }
    assert (NA : ~ In (f a) A) by (now apply DR).
    assert (KR : keeps (ml st) R (ml st1) f) by (eapply keeps_sub; eassumption).
    assert (NEQ : forall c, reach (ml st) R c -> f c <> f a).
    { intros c Hc E. destruct K as [_ I]. apply (proj1 (DJ c Hc)). apply I; [now apply (reach_mono _ R)|exact RA|exact E]. }
    assert (KR2 : keeps (ml st) R h2 f) by (apply keeps_upd; assumption).
    assert (AG : forall x, x <> f a -> h2 x = ml st1 x).
    { intros x Hx. unfold h2, upd. now rewrite (proj2 (Nat.eqb_neq _ _) Hx). }
    assert (ES' : src b0 = Some (tag, (ws1 ++ [w]) ++ ws2)) by (rewrite <- app_assoc; exact ES).
    destruct (IH Pts (ws1 ++ [w]) {| tick := tick st1; ml := h2; roots := Cml (f a) :: map (ren f) R |} (f a) (map (ren f) R)
       (map (ren f) dws ++ [r]) (ts1 ++ [t]) (map f B ++ (A ++ [])) z ES' eq_refl)
      as (st' & g & a' & dws' & B' & E1 & E2 & E3 & E4 & E5 & E6 & E7 & E8).
    + cbn [ml]. unfold h2, upd. rewrite Nat.eqb_refl, <- app_assoc. reflexivity.
    + rewrite !app_length, L1. reflexivity.
    + cbn [ml]. apply owns_app.
      * apply (proj2 (own_agree (ml st1) h2)); [exact (proj2 (own_moved _ _ _ _ K) _ _ _ O P1 RD)|].
        intros x Hx. apply AG. intros ->. contradiction.
      * constructor; [|constructor]. apply (proj1 (own_agree (ml st1) h2)); [exact OR|]. intros x Hx. apply AG. intros ->. contradiction.
    + apply Forall_app. split; [exact P1|]. constructor; [exact Pt|constructor].
    + rewrite app_nil_r. intros X. apply in_app_or in X. tauto.
    + cbn [ml]. intros b' Hb'. apply reach_upd in Hb'.
      * destruct (reach_image _ _ _ _ KR b' Hb') as (c & Hc & ->). split; [now apply NEQ|]. rewrite app_nil_r.
        intros X. apply in_app_or in X. destruct X as [X|X].
        -- apply in_map_iff in X. destruct X as (b & E & Hb). apply (proj2 (DJ c Hc)). destruct K as [_ I].
           rewrite <- (I b c (RB b Hb) (reach_mono _ R _ SUB c Hc) E). exact Hb.
        -- exact (DR c (reach_mono _ R _ SUB c Hc) X).
      * intros X. destruct (reach_image _ _ _ _ KR _ X) as (c & Hc & E). now apply (NEQ c Hc).
    + rewrite app_length in E1. cbn [length] in E1. rewrite Nat.add_1_r in E1.
      exists st', (fun x => g (f x)), a', dws', B'. split; [exact E1|]. split; [rewrite E2, ren_ren; reflexivity|].
      split; [exact E3|]. split; [rewrite <- app_assoc in E4; exact E4|]. split; [exact E5|].
      split; [eapply keeps_trans; [exact KR2|exact E6]|]. split.
      * intros b Hb. apply E7. cbn [ml]. now apply (reach_fwd _ _ _ _ KR2).
      * rewrite E8. cbn [tick map]. rewrite TK. cbn [list_sum fold_right]. unfold list_sum. cbn [fold_right]. lia.
Qed.

Lemma copy_ok : forall t v, value_in src v t -> plain t -> exists F0, forall F, F0 <= F -> gives (copy src alloc F) v t.
Proof.
  apply (tree_ind2 (fun t => forall v, value_in src v t -> plain t -> exists F0, forall F, F0 <= F -> gives (copy src alloc F) v t)).
  - intros z v H _. inversion H; subst. exists 1. intros [|F] HF; [lia|]. intros st. exists st, (fun x => x), (Imm z), [].
    assert (RI : forall l, map (ren (fun x => x)) l = l).
    { intros l. rewrite <- (map_id l) at 2. apply map_ext. intros []; reflexivity. }
    assert (KI : keeps (ml st) (roots st) (ml st) (fun x => x)).
    { split; [|intros b c _ _ E; exact E]. intros b _. destruct (ml st b) as [[g ws]|]; [|reflexivity]. cbn [option_map]. unfold moved. cbn [fst snd].
      rewrite RI. now destruct (g <? no_scan). }
    split; [reflexivity|]. split; [now rewrite RI|]. split; [exact KI|]. split; [constructor|]. split; [intros b _ []|].
    cbn [blocks]. lia.
  - intros tag ts IH v H P. inversion H as [|b0 tag' ws ts' ES FV]; subst. inversion P as [|? ? T NE PS]; subst.
    assert (X : exists F0, forall F, F0 <= F -> Forall2 (gives (copy src alloc F)) ws ts).
    { clear - IH FV PS. induction FV as [|w t ws ts Hw _ I]; [exists 0; intros; constructor|].
      inversion IH; subst. inversion PS; subst. destruct (H1 w Hw H3) as [m Hm]. destruct (I H2 H4) as [n Hn].
      exists (m + n). intros F HF. constructor; [apply Hm; lia|apply Hn; lia]. }
    destruct X as [F0 HF0]. exists (S F0). intros [|F] HF; [lia|]. intros st. cbn [copy is_long lookup]. rewrite ES.
    assert (LEN : length ws = length ts) by (clear - FV; induction FV; [reflexivity|cbn [length]; now f_equal]).
    assert (N0 : 0 < length ws) by (rewrite LEN; destruct ts; [congruence|cbn [length]; lia]).
    pose proof (Halloc (tick st) (ml st) (roots st) tag (length ws) T N0) as HA.
    destruct (alloc (tick st) (ml st) (roots st) tag (length ws)) as [[h f] a]. destruct HA as (K & (z & EA) & NA).
    destruct (fill_ok (copy src alloc F) b0 tag T ws ts (HF0 F ltac:(lia)) PS [] {| tick := S (tick st); ml := h; roots := Cml a :: map (ren f) (roots st) |}
       a (map (ren f) (roots st)) [] [] [] z ES eq_refl EA eq_refl (os_nil _) (Forall_nil _) (fun x => x))
      as (st' & g & a' & dws' & B' & E1 & E2 & E3 & E4 & E5 & E6 & E7 & E8).
    + cbn [ml]. intros b Hb. destruct (reach_image _ _ _ _ K b Hb) as (c & Hc & ->). split; [now apply NA|intros []].
    + cbn [length] in E1. rewrite E1, E2. eexists. exists (fun x => g (f x)), (Cml a'), (a' :: B'). split; [reflexivity|].
      cbn [roots ml tick] in *. split; [now rewrite ren_ren|]. split; [eapply keeps_trans; eassumption|].
      split; [econstructor; eassumption|]. split.
      * intros b Hb. destruct (E7 (f b) (reach_fwd _ _ _ _ K b Hb)) as [Q1 Q2]. intros [X|X]; [congruence|contradiction].
      * rewrite E8. cbn [blocks]. lia.
Qed.

End RUN.

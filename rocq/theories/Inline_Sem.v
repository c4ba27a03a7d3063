(** * Inlining preserves evaluation: proof *)
From Coq Require Import ZArith NArith Arith List Lia Bool.
From Verif Require Import ANF_Syntax ANF_Eval ANF_Spec ANF_EvalProofs ANF_FreeProofs ANF_Scope
  ANF_LR ANF_LRProofs ANF_Subst ANF_Alpha Inline_Model Inline_LetProofs Inline_Syn.
Import ListNotations.

(** ** Scoping discipline *)
Definition fmwf (fm : fun_map) : Prop := forall f d, get f fm = Some d ->
  NoDup (own d) /\
  forall g d', get g fm = Some d' -> forall x, In x (own d) ->
    ~ fvb d' x /\ x <> g /\ (f <> g -> ~ In x (own d')).

Definition ewf (e : exp) (fm : fun_map) : Prop :=
  NoDup (bv e) /\ (forall x, In x (bv e) -> ~ free x e) /\
  forall f d, get f fm = Some d ->
    (forall x, In x (own d) -> ~ free x e /\ ~ In x (bv e)) /\
    (forall x, In x (bv e) -> ~ fvb d x /\ x <> f).

Lemma fnames_bv B x : In x (fnames B) -> In x (bv_funs B).
Proof.
  induction B as [g t xs b B IH|]; cbn; [|tauto].
  intros [->|K]; [auto|right]. apply in_or_app. right. apply in_or_app. right. auto.
Qed.

Lemma own_bv B f d : find_def f B = Some d -> forall x, In x (own d) -> In x (bv_funs B).
Proof.
  induction B as [g t xs b B IH|]; cbn; [|discriminate].
  destruct (Pos.eq_dec f g); intros H x I; right.
  - injection H as <-. cbn in I. rewrite app_assoc. apply in_or_app. auto.
  - apply in_or_app. right. apply in_or_app. right. auto.
Qed.

Lemma bvf_facts B : NoDup (bv_funs B) -> forall f d, find_def f B = Some d ->
  NoDup (own d) /\ (forall x, In x (own d) -> ~ In x (fnames B)) /\
  (forall g d', g <> f -> find_def g B = Some d' -> forall x, In x (own d) -> ~ In x (own d')).
Proof.
  induction B as [h t xs b B IH|]; cbn [bv_funs find_def fnames]; intros ND f d H; [|discriminate].
  inversion ND as [|? ? N1 N2]; subst. rewrite app_assoc in N1, N2.
  apply NoDup_app_iff in N2 as (N3 & N4 & N5). rewrite in_app_iff in N1.
  destruct (Pos.eq_dec f h) as [->|NE].
  - injection H as <-. cbn [own]. split; [exact N3|]. split.
    + intros x I [->|J]; [tauto|]. apply (N5 x I). apply fnames_bv. exact J.
    + intros g d' NG H x I J. destruct (Pos.eq_dec g h); [congruence|].
      apply (N5 x I). eapply own_bv; eauto.
  - destruct (IH N4 f d H) as (A1 & A2 & A3). split; [auto|]. split.
    + intros x I [->|J]; [|exact (A2 x I J)]. apply N1. right. eapply own_bv; eauto.
    + intros g d' NG H' x I J. destruct (Pos.eq_dec g h) as [->|].
      * injection H' as <-. cbn [own] in J. apply (N5 x J). eapply own_bv; eauto.
      * exact (A3 g d' NG H' x I J).
Qed.

Lemma ewf_sub e1 e fm :
  ewf e fm -> (exists l, bv e = l ++ bv e1 \/ exists l2, bv e = l ++ bv e1 ++ l2) ->
  (forall y, free y e1 -> free y e \/ In y (bv e) /\ ~ In y (bv e1)) ->
  ewf e1 fm.
Proof.
  intros (W1 & W2 & W3) (l & L) F.
  assert (ND : NoDup (bv e1)).
  { destruct L as [L|(l2 & L)]; rewrite L in W1; apply NoDup_app_iff in W1 as (_ & W1 & _); auto.
    apply NoDup_app_iff in W1. tauto. }
  assert (I : forall x, In x (bv e1) -> In x (bv e)).
  { intros x Ix. destruct L as [L|(l2 & L)]; rewrite L; rewrite ?in_app_iff; auto. }
  split; [auto|]. split.
  - intros x Ix Fx. destruct (F x Fx) as [Fx'|[_ K]]; [exact (W2 x (I x Ix) Fx')|auto].
  - intros f d G. destruct (W3 f d G) as [W4 W5]. split.
    + intros x Ix. destruct (W4 x Ix) as [A1 A2]. split; [|auto]. intro Fx.
      destruct (F x Fx) as [|[K _]]; auto.
    + intros x Ix. apply W5. auto.
Qed.

Lemma ewf_bind x e1 e fm : bv e = x :: bv e1 -> (forall y, free y e1 -> y <> x -> free y e) ->
  ewf e fm -> ewf e1 fm /\ (forall f d, get f fm = Some d -> ~ fvb d x /\ x <> f).
Proof.
  intros B F W. pose proof W as (W1 & W2 & W3). rewrite B in W1. inversion W1; subst. split.
  - apply (ewf_sub e1 e fm W).
    + exists [x]. left. exact B.
    + intros y Fy. destruct (Pos.eq_dec y x) as [->|N]; [right|left; auto]. rewrite B. split; [left; auto|auto].
  - intros f d G. apply (W3 f d G). rewrite B. left. auto.
Qed.

Lemma wf_inline fm f t xs b : fmwf fm -> get f fm = Some (t, xs, b) ->
  fmwf (mremove f fm) /\ ewf b (mremove f fm) /\
  (forall g d, get g (mremove f fm) = Some d -> forall x, In x xs -> ~ fvb d x /\ x <> g).
Proof.
  intros W G. destruct (W f _ G) as [ND H]. cbn [own] in *.
  split; [|split].
  - intros g d Gg. apply mremove_get in Gg as [_ Gg]. destruct (W g d Gg) as [A1 A2]. split; [auto|].
    intros h d' Gh. apply mremove_get in Gh as [_ Gh]. eauto.
  - apply NoDup_app_iff in ND as (N1 & N2 & N3). split; [auto|]. split.
    + intros x Ix Fx. destruct (H f _ G x) as (A1 & _); [apply in_or_app; auto|].
      apply A1. split; [auto|]. intro J. exact (N3 x J Ix).
    + intros g d Gg. apply mremove_get in Gg as [NE Gg]. destruct (W g d Gg) as [M1 M2]. split.
      * intros x Ix. destruct (M2 f _ G x Ix) as (A1 & A2 & A3). specialize (A3 NE). cbn [own] in A3.
        rewrite in_app_iff in A3. split; [|tauto]. intro Fx. apply A1. split; [auto|]. tauto.
      * intros x Ix. destruct (H g d Gg x) as (A1 & A2 & A3); [apply in_or_app; auto|]. auto.
  - intros g d Gg x Ix. apply mremove_get in Gg as [NE Gg].
    destruct (H g d Gg x) as (A1 & A2 & A3); [apply in_or_app; auto|]. auto.
Qed.

Lemma wf_fun B e fm : fmwf fm -> ewf (Efun B e) fm ->
  fmwf (add_fundefs B fm) /\ ewf e (add_fundefs B fm).
Proof.
  intros W (E1 & E2 & E3). cbn [bv] in E1. apply NoDup_app_iff in E1 as (N1 & N2 & N3).
  pose proof (bvf_facts B N1) as BF.
  assert (FVB : forall g d' y, find_def g B = Some d' -> fvb d' y ->
            In y (fnames B) \/ free y (Efun B e)).
  { intros g [[t xs] b] y FD [F1 F2]. destruct (in_dec Pos.eq_dec y (fnames B)); [auto|right].
    cbn. split; [auto|right]. eapply find_def_free; eauto. }
  assert (OB : forall f d, find_def f B = Some d -> forall x, In x (own d) -> In x (bv (Efun B e))).
  { intros f d FD x Ix. cbn. apply in_or_app. left. eapply own_bv; eauto. }
  assert (NB : forall x, In x (fnames B) -> In x (bv (Efun B e))).
  { intros x Ix. cbn. apply in_or_app. left. apply fnames_bv. auto. }
  split.
  - intros f d G. rewrite get_add_fundefs in G.
    assert (ND : NoDup (own d)).
    { destruct (find_def f B) as [d0|] eqn:FD; [injection G as ->; apply (BF f d FD)|apply (W f d G)]. }
    split; [auto|]. intros g d' G' x Ix. rewrite get_add_fundefs in G'.
    destruct (find_def f B) as [d0|] eqn:FD; [injection G as ->|].
    + destruct (BF f d FD) as (_ & B2 & B3). destruct (find_def g B) as [d1|] eqn:FG; [injection G' as ->|].
      * split; [|split].
        -- intro K. destruct (FVB g d' x FG K) as [K'|K']; [exact (B2 x Ix K')|exact (E2 x (OB f d FD x Ix) K')].
        -- intros ->. apply (B2 g Ix). apply find_def_fnames. congruence.
        -- intro NE. apply (B3 g d'); auto.
      * destruct (E3 g d' G') as [P1 P2]. destruct (P2 x (OB f d FD x Ix)) as [Q1 Q2].
        split; [auto|split; [auto|]]. intros _ K. apply (P1 x K). apply (OB f d FD x Ix).
    + destruct (E3 f d G) as [P1 P2]. destruct (P1 x Ix) as [Q1 Q2].
      destruct (find_def g B) as [d1|] eqn:FG; [injection G' as ->|].
      * split; [|split].
        -- intro K. destruct (FVB g d' x FG K) as [K'|K']; [apply Q2; apply NB; auto|auto].
        -- intros ->. apply Q2. apply NB. apply find_def_fnames. congruence.
        -- intros _ K. apply Q2. exact (OB g d' FG x K).
      * destruct (W f d G) as [_ W']. apply (W' g d' G' x Ix).
  - split; [auto|]. split.
    + intros x Ix Fx. apply (E2 x); [cbn; apply in_or_app; auto|]. cbn. split; [|auto].
      intro J. apply (N3 x); auto. apply fnames_bv. auto.
    + intros f d G. rewrite get_add_fundefs in G. destruct (find_def f B) as [d0|] eqn:FD; [injection G as ->|].
      * destruct (BF f d FD) as (_ & B2 & B3). split.
        -- intros x Ix. split; [|apply N3; eapply own_bv; eauto]. intro Fx.
           apply (E2 x (OB f d FD x Ix)). cbn. split; [auto|auto].
        -- intros x Ix. split.
           ++ intro K. destruct (FVB f d x FD K) as [K'|K'].
              ** apply (N3 x); [apply fnames_bv; auto|auto].
              ** apply (E2 x); [cbn; apply in_or_app; auto|auto].
           ++ intros ->. apply (N3 f); [|auto]. apply fnames_bv. apply find_def_fnames. congruence.
      * destruct (E3 f d G) as [P1 P2]. split.
        -- intros x Ix. destruct (P1 x Ix) as [Q1 Q2]. cbn [bv] in Q2. rewrite in_app_iff in Q2.
           split; [|tauto]. intro Fx. apply Q1. cbn. split; [|auto]. intro K. apply Q2. left. apply fnames_bv. auto.
        -- intros x Ix. apply P2. cbn. apply in_or_app. auto.
Qed.

Lemma NoDup_bundles :
  (forall e, NoDup (bv e) -> fnd e) /\
  (forall B, NoDup (bv_funs B) -> NoDup (fnames B) /\ forall D, In D (bundles_funs B) -> NoDup (fnames D)).
Proof.
  apply exp_fundefs_ind; unfold fnd; intros; cbn [bv bundles bv_funs bundles_funs fnames] in *;
    try (match goal with H : NoDup (_ :: ?l), G : NoDup ?l -> _ |- In _ _ -> _ => inversion H; subst; apply G; auto end; fail);
    try (match goal with H : NoDup (_ :: ?l), G : NoDup ?l -> _, I : In _ _ |- _ => inversion H; subst; apply G; auto; fail end);
    try contradiction.
  - induction H as [|p l Hp F IHl]; cbn in *; [contradiction|].
    apply NoDup_app_iff in H0 as (N1 & N2 & _). apply in_app_iff in H1 as [I|I]; auto.
  - apply NoDup_app_iff in H1 as (N1 & N2 & _). destruct (H N1) as [H3 H4].
    destruct H2 as [<-|I]; [auto|]. apply in_app_iff in I as [I|I]; auto.
  - inversion H1 as [|? ? N1 N2]; subst. apply NoDup_app_iff in N2 as (_ & N2 & _).
    apply NoDup_app_iff in N2 as (N3 & N4 & _). destruct (H0 N4) as [H3 H4]. split.
    + constructor; [|auto]. intro K. apply N1. rewrite !in_app_iff. right. right. apply fnames_bv. auto.
    + intros D I. apply in_app_iff in I as [I|I]; auto.
  - split; [exact (NoDup_nil _)|intros D []].
Qed.

Lemma ewf_fnd e fm : ewf e fm -> fnd e.
Proof. intros (N & _). apply NoDup_bundles. exact N. Qed.

Lemma fmwf_fnd fm : fmwf fm -> fnd_fm fm.
Proof.
  intros W f t xs b G. destruct (W f _ G) as [N _]. cbn in N. apply NoDup_app_iff in N.
  apply NoDup_bundles. tauto.
Qed.

(** the counter never goes back *)
Lemma inline_next St IH : forall d e j sig fm s w e' w',
  inline_exp St IH d j e sig fm s w = (e', w') -> (next_var w <= next_var w')%positive.
Proof.
  intro d. induction d as [d IHd] using lt_wf_ind. intro e.
  assert (FN : forall xs w xs' w', get_fresh_names xs w = (xs', w') -> (next_var w <= next_var w')%positive).
  { intros xs w xs' w' HF. apply fresh_names_spec in HF. tauto. }
  induction e using exp_ind2 with (P0 := fun B => forall j sig sig' fm' s w B' w',
      inl_fds St IH (fun e sg f s w => inline_exp St IH d j e sg (mremove f fm') s w) sig sig' B s w = (B', w') ->
      (next_var w <= next_var w')%positive);
    [ | | | | | | | | | |intros j sig sig' fm' s w B' w' HH; cbn in HH; injection HH as <- <-; lia];
    [intros j sig fm s w e' w' HH..|intros j sig sig' fm' s w B' w' HH].
  - rewrite inl_Econstr in HH. cbn [get_fresh_name] in HH. destruct (inline_exp St IH d j e _ fm s _) eqn:E.
    injection HH as <- <-. apply IHe in E. cbn in E. lia.
  - rewrite inl_Ecase in HH. destruct (inl_cl _ l w) as [l' w1] eqn:E. injection HH as <- <-.
    revert w l' w1 E. induction H as [|[t e] l Hp F IHl]; intros w l' w1 E; cbn [inl_cl] in E.
    + injection E as <- <-. lia.
    + destruct (inline_exp St IH d j e sig fm s w) as [e1 w2] eqn:E1.
      destruct (inl_cl _ l w2) as [l2 w3] eqn:E2. injection E as <- <-.
      apply Hp in E1. apply IHl in E2. lia.
  - rewrite inl_Eproj in HH. cbn [get_fresh_name] in HH. destruct (inline_exp St IH d j e _ fm s _) eqn:E.
    injection HH as <- <-. apply IHe in E. cbn in E. lia.
  - assert (K : forall s w0, (next_var w <= next_var w0)%positive -> keep_let St IH d j x f t ys e sig fm s w0 = (e', w') -> (next_var w <= next_var w')%positive).
    { clear HH s. intros s w0 L K. unfold keep_let in K. cbn [get_fresh_name] in K. destruct (inline_exp St IH d j e _ fm s _) eqn:E.
      injection K as <- <-. apply IHe in E. cbn in E. lia. }
    rewrite inl_Eletapp in HH. destruct (update_letApp IH f t (apply_r_list sig ys) s) as [[s' s''] dec].
    destruct dec; [|eapply K; [|exact HH]; lia]. destruct (get f fm) as [[[ft xs] b]|]; [|eapply K; [|exact HH]; lia].
    destruct d as [|d']; [eapply K; [|exact HH]; lia|]. destruct j as [|j']; [eapply K; [|exact HH]; lia|].
    destruct (Nat.eqb (length xs) (length ys)); [|eapply K; [|exact HH]; lia].
    cbn [get_fresh_name] in HH. destruct (split_fuel j') as [j1 j2].
    destruct (inline_exp St IH d' j1 b _ _ s' _) as [b' w1] eqn:E1. apply IHd in E1; [|lia]. cbn in E1.
    destruct (inline_letapp b' (next_var w)) as [[C x']|].
    + destruct (inline_exp St IH d' j2 e _ fm s'' _) as [ec' w2] eqn:E2. injection HH as <- <-.
      apply IHd in E2; [|lia]. cbn in E2. lia.
    + eapply K; [|exact HH]. lia.
  - rewrite inl_Efun in HH. cbv zeta in HH. destruct (update_funDef IH B sig s) as [s1 s2].
    destruct (get_fresh_names (fnames B) w) as [names' w1] eqn:EN.
    destruct (inl_fds St IH _ sig _ B s1 w1) as [B' w2] eqn:EB.
    destruct (inline_exp St IH d j e _ _ s2 w2) as [e1 w3] eqn:EE. injection HH as <- <-.
    apply FN in EN. apply IHe in EB. apply IHe0 in EE. lia.
  - rewrite inl_Eapp in HH. cbv zeta in HH. destruct (update_App IH f t (apply_r_list sig ys) s) as [s' dec].
    destruct dec; [|injection HH as <- <-; lia]. destruct (get f fm) as [[[ft xs] b]|]; [|injection HH as <- <-; lia].
    destruct d as [|d']; [injection HH as <- <-; lia|]. destruct j as [|j']; [injection HH as <- <-; lia|].
    destruct (Nat.eqb (length xs) (length ys)); [|injection HH as <- <-; lia].
    apply IHd in HH; [|lia]. exact HH.
  - rewrite inl_Eprim_val in HH. cbn [get_fresh_name] in HH. destruct (inline_exp St IH d j e _ fm s _) eqn:E.
    injection HH as <- <-. apply IHe in E. cbn in E. lia.
  - rewrite inl_Eprim in HH. cbn [get_fresh_name] in HH. destruct (inline_exp St IH d j e _ fm s _) eqn:E.
    injection HH as <- <-. apply IHe in E. cbn in E. lia.
  - rewrite inl_Ehalt in HH. injection HH as <- <-. lia.
  - rewrite inl_fds_cons in HH. destruct (get_fresh_names xs w) as [xs' w1] eqn:EX.
    destruct (inline_exp St IH d j e _ _ _ w1) as [e1 w2] eqn:E1.
    destruct (inl_fds St IH _ sig sig' B s w2) as [B1 w3] eqn:EB. injection HH as <- <-.
    apply FN in EX. apply IHe in E1. apply IHe0 in EB. lia.
Qed.

Local Open Scope nat_scope.

Lemma apply_r_inj : forall (xs xs' : list var) (sg : r_map) f g, length xs' = length xs -> NoDup xs' ->
  In f xs -> In g xs ->
  apply_r (set_list (combine xs xs') sg) f = apply_r (set_list (combine xs xs') sg) g -> f = g.
Proof.
  induction xs as [|x xs IH]; intros [|x' xs'] sg f g L ND If Ig; cbn in L; try discriminate; [destruct If|].
  inversion ND as [|? ? N1 N2]; subst. cbn [combine set_list fold_right fst snd].
  change (fold_right _ _ _) with (set_list (combine xs xs') sg). rewrite !apply_r_set.
  assert (L' : length xs' = length xs) by congruence.
  destruct (Pos.eq_dec f x) as [->|Nf], (Pos.eq_dec g x) as [->|Ng]; intro E; auto.
  - destruct Ig as [|Ig]; [congruence|]. exfalso. apply N1. rewrite E. apply apply_r_set_list; auto.
  - destruct If as [|If]; [congruence|]. exfalso. apply N1. rewrite <- E. apply apply_r_set_list; auto.
  - destruct Ig as [|Ig]; [congruence|]. destruct If as [|If]; [congruence|].
    eapply IH; eauto.
Qed.

Section Sem.
  Variable cenv : ctor_env.
  Variables A G : nat.
  Hypothesis HAG : G + 1 <= A.
  Notation PG := (lin A G).
  Notation VR := (vrel cenv PG).
  Notation AR := (arel cenv PG).

  (** [known n k rho2 sig fm rho X]: the functions of [X] in [rho] that [fm]
      describes are closures over that description, whose environment is
      related to [rho2] through [sig] *)
  Fixpoint known (n : nat) (k : nat) (rho2 : env) (sig : r_map) (fm : fun_map) (rho : env) (X : var -> Prop) : Prop :=
    match n with
    | O => True
    | S n => forall f d v, X f -> get f fm = Some d -> get f rho = Some v ->
        exists rhoc B, v = Vfun rhoc B f /\ find_def f B = Some d /\
          (forall y, fvb d y -> AR k (def_funs B B rhoc rhoc) y rho2 (apply_r sig y)) /\
          known n k rho2 sig (mremove f fm) (def_funs B B rhoc rhoc) (fvb d)
    end.

  Definition inv (n k : nat) (rho1 rho2 : env) (X : var -> Prop) (sig : r_map) (fm : fun_map) : Prop :=
    (forall y, X y -> AR k rho1 y rho2 (apply_r sig y)) /\ known n k rho2 sig fm rho1 X.

  Lemma arel_change k j rho1 rho1' y rho2 z rho2' z' :
    AR k rho1 y rho2 z -> j <= k -> get y rho1' = get y rho1 -> get z' rho2' = get z rho2 ->
    AR j rho1' y rho2' z'.
  Proof.
    intros H J E1 E2. eapply (arel_mono cenv PG k); [exact J|]. intros v Gv. rewrite E1 in Gv. rewrite E2. auto.
  Qed.

  Lemma known_change : forall n k j rho2 sig fm rho (X : var -> Prop) rho2' sig' fm' rho' (X' : var -> Prop),
    known n k rho2 sig fm rho X -> j <= k ->
    (forall f d, X' f -> get f fm' = Some d -> X f /\ get f fm = Some d /\ get f rho' = get f rho) ->
    (forall f d, get f fm = Some d -> forall y, fvb d y ->
       get (apply_r sig' y) rho2' = get (apply_r sig y) rho2 /\
       forall d', get y fm' = Some d' -> get y fm = Some d') ->
    known n j rho2' sig' fm' rho' X'.
  Proof.
    induction n as [|n IH]; intros k j rho2 sig fm rho X rho2' sig' fm' rho' X' K J H1 H2; [exact I|].
    cbn [known] in *. intros f d v Xf Gf Gv. destruct (H1 f d Xf Gf) as (Xf' & Gf' & E). rewrite E in Gv.
    destruct (K f d v Xf' Gf' Gv) as (rhoc & B & -> & FD & AR1 & K1).
    exists rhoc, B. split; [auto|]. split; [auto|]. split.
    - intros y Fy. eapply arel_change; [apply AR1; exact Fy|exact J|auto|]. apply (H2 f d); auto.
    - eapply IH; [exact K1|exact J| |].
      + intros g d' Fg Gg. apply mremove_get in Gg as [NE Gg]. split; [auto|]. split; [|auto].
        rewrite get_mremove. destruct (Pos.eq_dec g f); [congruence|]. apply (H2 f d Gf' g Fg). exact Gg.
      + intros g d' Gg y Fy. apply mremove_get in Gg as [NE Gg]. destruct (H2 g d' Gg y Fy) as [H3 H4].
        split; [auto|]. intros d2 Gy. apply mremove_get in Gy as [NEy Gy]. rewrite get_mremove.
        destruct (Pos.eq_dec y f); [congruence|]. auto.
  Qed.

  Lemma known_dec : forall n m k rho2 sig fm rho X, m <= n ->
    known n k rho2 sig fm rho X -> known m k rho2 sig fm rho X.
  Proof.
    induction n as [|n IH]; intros [|m] k rho2 sig fm rho X L K; try lia; try exact I.
    cbn [known] in *. intros f d v Xf Gf Gv. destruct (K f d v Xf Gf Gv) as (rhoc & B & -> & FD & AR1 & K1).
    exists rhoc, B. split; [auto|]. split; [auto|]. split; [auto|]. apply IH; [lia|auto].
  Qed.

  Lemma inv_mono n m k j rho1 rho2 (X X' : var -> Prop) sig fm : m <= n -> j <= k -> (forall y, X' y -> X y) ->
    inv n k rho1 rho2 X sig fm -> inv m j rho1 rho2 X' sig fm.
  Proof.
    intros L J S [I1 I2]. split.
    - intros y Xy. eapply (arel_mono cenv PG k); auto.
    - eapply known_change; [eapply known_dec; [exact L|exact I2]|exact J| |].
      + intros f d Xf Gf. auto.
      + auto.
  Qed.

  Lemma inv_binds n k j rho1 rho2 (X : var -> Prop) sig fm rho1' rho2' (X' : var -> Prop) sig' fm' (xs : list var) :
    inv n k rho1 rho2 X sig fm -> j <= k ->
    (forall y, X' y -> ~ In y xs -> X y) ->
    (forall f d, get f fm = Some d -> forall x, In x xs -> ~ fvb d x /\ x <> f) ->
    (forall f d, get f fm' = Some d -> get f fm = Some d) ->
    (forall y, ~ In y xs -> get y rho1' = get y rho1 /\ apply_r sig' y = apply_r sig y) ->
    (forall y, X y \/ (exists f d, get f fm = Some d /\ fvb d y) -> ~ In y xs ->
       get (apply_r sig y) rho2' = get (apply_r sig y) rho2) ->
    (forall y, In y xs -> AR j rho1' y rho2' (apply_r sig' y)) ->
    inv n j rho1' rho2' X' sig' fm'.
  Proof.
    intros [I1 I2] J HX HF HM H1 H2 HA. split.
    - intros y Xy. destruct (in_dec Pos.eq_dec y xs) as [Iy|Iy]; [auto|]. destruct (H1 y Iy) as [E1 E2].
      eapply arel_change; [apply I1; auto|exact J|exact E1|]. rewrite E2. apply H2; auto.
    - eapply known_change; [exact I2|exact J| |].
      + intros f d Xf Gf. assert (Nf : ~ In f xs) by (intro K; apply (HF f d (HM f d Gf) f) in K; tauto).
        split; [auto|]. split; [auto|]. apply H1. auto.
      + intros f d Gf y Fy. assert (Ny : ~ In y xs) by (intro K; apply (HF f d Gf y) in K; tauto).
        destruct (H1 y Ny) as [E1 E2]. split; [|auto]. rewrite E2. apply H2; eauto.
  Qed.

  (** parameters bound to arguments *)
  Lemma params_arel k (sig : r_map) rho2 : forall (xs ys' : list var) vs1 rho rho1',
    set_lists xs vs1 rho = Some rho1' ->
    Forall2 (fun v1 y' => exists v2, get y' rho2 = Some v2 /\ VR k v1 v2) vs1 ys' ->
    forall y, In y xs -> AR k rho1' y rho2 (apply_r (set_list (combine xs ys') sig) y).
  Proof.
    induction xs as [|x xs IH]; intros ys' vs1 rho rho1' S F y Iy; [destruct Iy|].
    destruct vs1 as [|v1 vs1]; cbn in S; [discriminate|]. inversion F as [|? y' ? ys1 (v2 & G2 & V) F']; subst.
    destruct (set_lists xs vs1 rho) as [r|] eqn:E; [|discriminate]. injection S as <-.
    cbn [combine set_list fold_right fst snd].
    change (fold_right _ _ _) with (set_list (combine xs ys1) sig). rewrite apply_r_set.
    destruct (Pos.eq_dec y x) as [->|N].
    - intros v Gv. rewrite get_set_same in Gv. injection Gv as <-. eauto.
    - eapply arel_change; [eapply (IH ys1 vs1); eauto; destruct Iy; [congruence|auto]|lia| |auto].
      rewrite get_set_other; auto.
  Qed.

  Lemma set_lists_bound k : forall xs' vs1 vs2 rho2 rho2', NoDup xs' ->
    set_lists xs' vs2 rho2 = Some rho2' -> Forall2 (VR k) vs1 vs2 ->
    Forall2 (fun v1 y' => exists v2, get y' rho2' = Some v2 /\ VR k v1 v2) vs1 xs'.
  Proof.
    induction xs' as [|x xs IH]; intros vs1 vs2 rho2 rho2' ND S F; inversion F as [|v1 v2 l1 l2 V F']; subst; cbn in S; try discriminate.
    - constructor.
    - inversion ND as [|? ? N1 N2]; subst. destruct (set_lists xs l2 rho2) as [r|] eqn:E; [|discriminate]. injection S as <-.
      constructor.
      + exists v2. rewrite get_set_same. auto.
      + specialize (IH l1 l2 rho2 r N2 E F'). clear - IH N1. induction IH as [|v y' l1 xs (w & Gw & Vw) F IHF]; constructor.
        * exists w. split; [|auto]. rewrite get_set_other; [auto|]. intros ->. apply N1. left. auto.
        * apply IHF. intro. apply N1. right. auto.
  Qed.

  Lemma args_arel k rho1 rho2 sig : forall ys vs, (forall y, In y ys -> AR k rho1 y rho2 (apply_r sig y)) ->
    get_list ys rho1 = Some vs ->
    Forall2 (fun v1 y' => exists v2, get y' rho2 = Some v2 /\ VR k v1 v2) vs (apply_r_list sig ys).
  Proof.
    induction ys as [|y ys IH]; intros vs H GL; cbn in *.
    - injection GL as <-. constructor.
    - destruct (get y rho1) as [v|] eqn:E; [|discriminate]. destruct (get_list ys rho1) as [l|] eqn:E'; [|discriminate].
      injection GL as <-. constructor; [apply (H y); auto|]. apply IH; auto.
  Qed.

  Variable St : Type.
  Variable IH : InlineHeuristic St.
  Notation inl := (inline_exp St IH).
  Notation ER j := (erel cenv VR (lin A (2 * j))).

  Definition below (e : exp) (fm : fun_map) (sig : r_map) (w : istate) : Prop :=
    forall y, need e fm y -> (apply_r sig y < next_var w)%positive.

  Definition sem_at d j e : Prop := forall sig fm s w e' w',
    inl d j e sig fm s w = (e', w') -> 2 * j <= G -> fmwf fm -> ewf e fm -> below e fm sig w ->
    forall k rho1 rho2, inv d k rho1 rho2 (fun y => free y e) sig fm -> ER j k rho1 e rho2 e'.

  Lemma sem_bind d d' j e e0 x x'' sig fm s w w1 e' w' k i rho1 rho2 rho2' v1 v2 :
    sem_at d' j e -> bv e0 = x :: bv e -> (forall y, free y e -> y <> x -> free y e0) ->
    inl d' j e (set x x'' sig) fm s w1 = (e', w') -> 2 * j <= G -> fmwf fm -> ewf e0 fm -> below e0 fm sig w ->
    (next_var w <= next_var w1)%positive -> (x'' < next_var w1)%positive ->
    inv d k rho1 rho2 (fun y => free y e0) sig fm -> d' <= d -> i <= k ->
    get x'' rho2' = Some v2 -> VR i v1 v2 ->
    (forall y, need e0 fm y -> get (apply_r sig y) rho2' = get (apply_r sig y) rho2) ->
    ER j i (set x v1 rho1) e rho2' e'.
  Proof.
    intros S BV FV E J WF WE BL N1 N2 INV D I GX V GET.
    destruct (ewf_bind x e e0 fm BV FV WE) as [WE' WX].
    eapply S; [exact E|exact J|exact WF|exact WE'| |].
    - intros y Ny. rewrite apply_r_set. destruct (Pos.eq_dec y x); [auto|].
      assert (apply_r sig y < next_var w)%positive; [|lia]. apply BL.
      destruct Ny as [Fy|K]; [left; auto|right; auto].
    - eapply (inv_binds d' k i rho1 rho2 (fun y => free y e0) sig fm _ _ _ _ _ [x]).
      + eapply inv_mono; [exact D|apply le_n| |exact INV]. auto.
      + exact I.
      + intros y Fy Ny. apply FV; [auto|]. intros ->. apply Ny. left. auto.
      + intros f dd Gf z [<-|[]]. apply (WX f dd Gf).
      + auto.
      + intros y Ny. assert (y <> x) by (intros ->; apply Ny; left; auto).
        rewrite get_set_other by auto. rewrite apply_r_set. destruct (Pos.eq_dec y x); [congruence|auto].
      + intros y K _. apply GET. exact K.
      + intros y [<-|[]]. rewrite apply_r_set. destruct (Pos.eq_dec x x); [|congruence].
        intros u Gu. rewrite get_set_same in Gu. injection Gu as <-. eauto.
  Qed.

  Lemma sem_inlined d d' j f ft xs b ys e0 sig fm s w w1 b' w' k rho1 rho2 v :
    sem_at d' j b -> S d' <= d -> get f fm = Some (ft, xs, b) -> length xs = length ys ->
    free f e0 -> (forall y, In y ys -> free y e0) ->
    inl d' j b (set_list (combine xs (apply_r_list sig ys)) sig) (mremove f fm) s w1 = (b', w') ->
    2 * j <= G -> fmwf fm -> below e0 fm sig w -> (next_var w <= next_var w1)%positive ->
    inv d k rho1 rho2 (fun y => free y e0) sig fm ->
    get f rho1 = Some v ->
    exists rhoc B, v = Vfun rhoc B f /\ find_def f B = Some (ft, xs, b) /\
      forall vs rho1', get_list ys rho1 = Some vs -> set_lists xs vs (def_funs B B rhoc rhoc) = Some rho1' ->
      ER j k rho1' b rho2 b'.
  Proof.
    intros S D GF L FF FY E J WF BL N INV GV.
    destruct d as [|d0]; [lia|]. pose proof INV as [I1 I2].
    cbn [known] in I2. destruct (I2 f _ v FF GF GV) as (rhoc & B & -> & FD & AR1 & K1).
    exists rhoc, B. split; [auto|]. split; [auto|]. intros vs rho1' GL SL.
    destruct (wf_inline fm f ft xs b WF GF) as (W1 & W2 & W3).
    assert (L' : length (apply_r_list sig ys) = length xs) by (unfold apply_r_list; rewrite map_length; auto).
    eapply S; [exact E|exact J|exact W1|exact W2| |].
    - intros y Ny. destruct (need_inlined f ft xs b fm sig ys e0 y GF L FY Ny) as (z & Nz & Ez).
      eapply Pos.lt_le_trans; [|exact N]. specialize (BL z Nz). rewrite <- Ez in BL. exact BL.
    - eapply (inv_binds d' k k (def_funs B B rhoc rhoc) rho2 (fvb (ft, xs, b)) sig (mremove f fm) _ _ _ _ _ xs).
      + eapply (inv_mono d0); [lia|apply le_n| |split; [exact AR1|exact K1]]. auto.
      + apply le_n.
      + intros y Fy Ny. split; auto.
      + exact W3.
      + auto.
      + intros y Ny. split; [eapply set_lists_not_In; eauto|]. apply apply_r_set_list; auto.
      + auto.
      + intros y Iy. eapply params_arel; [exact SL| |exact Iy]. eapply args_arel; [|exact GL]. auto.
  Qed.

  (** a call replaced by the body *)
  Lemma erel_inline_app (P P' : cost_rel) k f t ys rho1 rho2 e2 ft xs b :
    P' false 0 0 -> (forall bb c1 c2, P bb c1 c2 -> P' bb (c1 + 1) c2) ->
    (forall v, get f rho1 = Some v -> exists rhoc B, v = Vfun rhoc B f /\ find_def f B = Some (ft, xs, b) /\
      forall vs rho1', get_list ys rho1 = Some vs -> set_lists xs vs (def_funs B B rhoc rhoc) = Some rho1' ->
      erel cenv VR P k rho1' b rho2 e2) ->
    erel cenv VR P' k rho1 (Eapp f t ys) rho2 e2.
  Proof.
    intros OKZ OKS H c1 r1 C BS. inversion BS as [? ? ? C0|? ? ? ? C0]; subst.
    - exists 0, OOT. split; [apply bstep_fuel_zero|]. split; [|exact I]. replace c1 with 0 by lia. exact OKZ.
    - inversion C0; subst.
      match goal with G1 : get f rho1 = Some _ |- _ => destruct (H _ G1) as (rhoc & B0 & E & FD & HE) end.
      injection E as -> -> ->.
      match goal with FD' : find_def f B0 = Some _ |- _ => rewrite FD in FD'; injection FD' as -> -> -> end.
      match goal with SL : set_lists _ _ _ = Some _, GL : get_list ys rho1 = Some _ |- _ =>
        specialize (HE _ _ GL SL) end.
      apply erel_mono with (j := k - 1) in HE; [|lia].
      edestruct HE as (c2 & r2 & B2 & P2 & R2); [|eassumption|]. { lia. }
      exists c2, r2. split; [auto|]. split; [auto|].
      replace (k - (c + 1)) with (k - 1 - c) by lia. exact R2.
  Qed.

  (** a bound call replaced by a context *)
  Lemma erel_inline_let j1 j2 k x f t ys ec rho1 rho2 e2 z C x' ec' ft xs b :
    1 <= A ->
    inline_letapp e2 z = Some (C, x') ->
    (forall v, get f rho1 = Some v -> exists rhoc B, v = Vfun rhoc B f /\ find_def f B = Some (ft, xs, b) /\
      forall vs rho1', get_list ys rho1 = Some vs -> set_lists xs vs (def_funs B B rhoc rhoc) = Some rho1' ->
      ER j1 k rho1' b rho2 e2) ->
    (forall i v1 v2 rho2', i <= k -> VR i v1 v2 -> get x' rho2' = Some v2 ->
       (forall y, y <> z -> ~ In y (bv e2) -> get y rho2' = get y rho2) ->
       ER j2 i (set x v1 rho1) ec rho2' ec') ->
    ER (S (j1 + j2)) k rho1 (Eletapp x f t ys ec) rho2 (app_ctx_f C ec').
  Proof.
    intros A1 IL H HK c1 r1 CC BS. inversion BS as [? ? ? C0|? ? ? ? C0]; subst.
    { exists 0, OOT. split; [apply bstep_fuel_zero|]. split; [cbn; lia|exact I]. }
    inversion C0; subst;
      (match goal with G1 : get f rho1 = Some _ |- _ => destruct (H _ G1) as (rhoc & B0 & E & FD & HE) end;
       injection E as -> -> ->;
       match goal with FD' : find_def f _ = Some _, FD'' : find_def f _ = Some (ft, xs, b) |- _ =>
         rewrite FD'' in FD'; injection FD' as -> -> -> end;
       match goal with SL : set_lists _ _ _ = Some _, GL : get_list ys rho1 = Some _ |- _ =>
         specialize (HE _ _ GL SL) end;
       apply erel_mono with (j := k - 1) in HE; [|lia];
       edestruct HE as (c2a & r2 & B2 & P2 & R2); [|eassumption|]; [lia|]).
    - destruct r2 as [|v2]; [destruct R2|]. cbn [res_rel] in R2. cbn [is_res lin] in P2.
      destruct (letapp_sem cenv _ _ _ _ IL _ _ _ B2) as (rho2' & c0 & GX & GO & L1 & L2 & RE).
      match goal with
      | BSa : bstep_fuel cenv _ e_body ?ca (Res v), BSb : bstep_fuel cenv (set x v rho1) ec ?cb r1 |- _ =>
        destruct (HK (k - 1 - ca) v v2 rho2' ltac:(lia) R2 GX GO cb r1 ltac:(lia) BSb) as (c2b & r2b & BB & PB & RB);
        exists (c0 + c2b), r2b; split; [apply RE; exact BB|]; split;
          [|replace (k - (ca + cb + 1)) with (k - 1 - ca - cb) by lia; exact RB]
      end.
      destruct (is_res r1); cbn [lin] in *; nia.
    - destruct r2 as [|v2]; [|destruct R2]. exists c2a, OOT. split; [|split; [|exact I]].
      + exact (letapp_sem cenv _ _ _ _ IL _ _ _ B2 ec').
      + cbn [is_res lin] in *. lia.
  Qed.

  Lemma below_mono e fm sig w w1 : below e fm sig w -> (next_var w <= next_var w1)%positive -> below e fm sig w1.
  Proof. intros B L y N. specialize (B y N). lia. Qed.

  Lemma args_AR k rho1 rho2 sig ys : (forall y, In y ys -> AR k rho1 y rho2 (apply_r sig y)) ->
    Forall2 (fun y1 y2 => AR k rho1 y1 rho2 y2) ys (apply_r_list sig ys).
  Proof.
    induction ys as [|y ys IHys]; intro H; cbn; constructor; [apply H; left; auto|].
    apply IHys. intros z I. apply H. right. auto.
  Qed.

  Lemma keep_let_sem d j x f t ys ec sig fm s w0 w e' w' :
    sem_at d j ec -> (next_var w0 <= next_var w)%positive ->
    keep_let St IH d j x f t ys ec sig fm s w = (e', w') ->
    2 * j <= G -> fmwf fm -> ewf (Eletapp x f t ys ec) fm -> below (Eletapp x f t ys ec) fm sig w0 ->
    forall k rho1 rho2, inv d k rho1 rho2 (fun y => free y (Eletapp x f t ys ec)) sig fm ->
    ER j k rho1 (Eletapp x f t ys ec) rho2 e'.
  Proof.
    intros S N E J WF WE BL k rho1 rho2 INV. unfold keep_let in E. cbn [get_fresh_name] in E.
    destruct (inl d j ec _ fm s _) as [ec' w1] eqn:EE. injection E as <- <-.
    pose proof (below_mono _ _ _ _ _ BL N) as BL'.
    apply erel_letapp with (P := lin A (2 * j)).
    - apply lin_let. exact HAG.
    - apply INV. cbn. auto.
    - apply args_AR. intros y Iy. apply INV. cbn. auto.
    - intros i v1 v2 I V.
      eapply (sem_bind d d j ec (Eletapp x f t ys ec) x (next_var w) sig fm s w _ ec' w1 k i);
        [exact S|reflexivity|cbn; auto|exact EE|exact J|exact WF|exact WE|exact BL'|cbn; lia|cbn; lia|exact INV|lia|lia
        |apply get_set_same|exact V|].
      intros y Ny. apply get_set_other. specialize (BL' y Ny). lia.
  Qed.

  Lemma inline_sem : forall d j e, sem_at d j e.
  Proof.
    intro d. induction d as [d IHd] using lt_wf_ind. intros j e. revert j.
    induction e using exp_ind2 with (P0 := fun B => forall f t xs e, In (f, t, xs, e) (flist B) ->
      forall j, sem_at d j e);
      [intros j sig fm s w e' w' HH J WF WE BL k rho1 rho2 INV..| |intros ? ? ? ? []].
    - (* Econstr *)
      rewrite inl_Econstr in HH. cbn [get_fresh_name] in HH.
      destruct (inl d j e _ fm s _) as [e1 w1] eqn:E. injection HH as <- <-.
      apply erel_constr with (P := lin A (2 * j)).
      + apply lin_step; lia.
      + apply args_AR. intros y Iy. apply INV. cbn. auto.
      + intros i vs1 vs2 I V.
        eapply (sem_bind d d j e (Econstr x t ys e) x (next_var w) sig fm s w _ e1 w1 k i);
          [apply IHe|reflexivity|cbn; auto|exact E|exact J|exact WF|exact WE|exact BL|cbn; lia|cbn; lia|exact INV|lia|lia
          |apply get_set_same|apply vrel_constr; auto|].
        intros y Ny. apply get_set_other. specialize (BL y Ny). lia.
    - (* Ecase *)
      rewrite inl_Ecase in HH. destruct (inl_cl _ l w) as [l' w1] eqn:E. injection HH as <- <-.
      assert (X : forall l0 w l' w1, (forall t e, In (t, e) l0 -> In (t, e) l) ->
        inl_cl (fun e w => inl d j e sig fm s w) l0 w = (l', w1) -> below (Ecase x l) fm sig w ->
        same_tags l0 l' /\
        forall t e, findtag l0 t = Some e -> exists e2 w2 w2', findtag l' t = Some e2 /\
          (next_var w <= next_var w2)%positive /\ inl d j e sig fm s w2 = (e2, w2')).
      { clear - HAG. induction l0 as [|[t e] l0 IHl]; intros w l' w1 S E B; cbn [inl_cl] in E.
        - injection E as <- <-. split; [reflexivity|discriminate].
        - destruct (inl d j e sig fm s w) as [e1 w2] eqn:E1. destruct (inl_cl _ l0 w2) as [l2 w3] eqn:E2.
          injection E as <- <-. pose proof (inline_next _ _ _ _ _ _ _ _ _ _ _ E1) as N.
          destruct (IHl w2 l2 w3) as [T F]; [intros; apply S; right; auto|exact E2|eapply below_mono; eauto|].
          split; [unfold same_tags in *; cbn; congruence|]. intros t' e' FT. cbn [findtag] in *.
          destruct (Pos.eq_dec t t').
          + injection FT as <-. exists e1, w, w2. split; [auto|]. split; [lia|auto].
          + destruct (F t' e' FT) as (e2 & w4 & w5 & A1 & A2 & A3). exists e2, w4, w5. split; [auto|]. split; [lia|auto]. }
      destruct (X l w l' w1) as [T F]; auto.
      apply erel_case with (P := lin A (2 * j)).
      + apply lin_step; lia.
      + apply INV. apply free_Ecase. auto.
      + exact T.
      + intros i t e I FT. destruct (F t e FT) as (e2 & w2 & w2' & A1 & A2 & A3). exists e2. split; [auto|].
        apply findtag_In in FT. rewrite Forall_forall in H.
        assert (FS : forall y, free y e -> free y (Ecase x l)).
        { intros y Fy. apply free_Ecase. right. eapply free_case_In; eauto. }
        eapply (H _ FT); [exact A3|exact J|exact WF| | |].
        * eapply ewf_sub; [exact WE| |intros y Fy; left; auto]. clear - FT. cbn [bv].
          induction l as [|[t' e'] l IHl]; [destruct FT|]. cbn [flat_map snd]. destruct FT as [EQ|FT].
          -- injection EQ as -> ->. exists []. right. eexists. reflexivity.
          -- destruct (IHl FT) as (l1 & [L|(l2 & L)]).
             ++ exists (bv e' ++ l1). left. rewrite L. rewrite app_assoc. reflexivity.
             ++ exists (bv e' ++ l1). right. exists l2. rewrite L. rewrite <- app_assoc. reflexivity.
        * eapply below_mono; [|exact A2]. intros y Ny. apply BL. eapply need_mono; eauto.
        * eapply inv_mono; [apply le_n| |exact FS|exact INV]. lia.
    - (* Eproj *)
      rewrite inl_Eproj in HH. cbn [get_fresh_name] in HH.
      destruct (inl d j e _ fm s _) as [e1 w1] eqn:E. injection HH as <- <-.
      apply erel_proj with (P := lin A (2 * j)).
      + apply lin_step; lia.
      + apply INV. cbn. auto.
      + intros i v1 v2 I V.
        eapply (sem_bind d d j e (Eproj x t n y e) x (next_var w) sig fm s w _ e1 w1 k i);
          [apply IHe|reflexivity|cbn; auto|exact E|exact J|exact WF|exact WE|exact BL|cbn; lia|cbn; lia|exact INV|lia|lia
          |apply get_set_same|exact V|].
        intros y0 Ny. apply get_set_other. specialize (BL y0 Ny). lia.
    - (* Eletapp *)
      rewrite inl_Eletapp in HH. destruct (update_letApp IH f t (apply_r_list sig ys) s) as [[s' s''] dec].
      assert (KL : forall w0, (next_var w <= next_var w0)%positive ->
                 keep_let St IH d j x f t ys e sig fm s' w0 = (e', w') ->
                 ER j k rho1 (Eletapp x f t ys e) rho2 e').
      { intros w0 N K. eapply (keep_let_sem d j x f t ys e sig fm s' w w0); eauto. }
      destruct dec; [|eapply KL; [|exact HH]; lia].
      destruct (get f fm) as [[[ft xs] b]|] eqn:GF; [|eapply KL; [|exact HH]; lia].
      destruct d as [|d']; [eapply KL; [|exact HH]; lia|]. destruct j as [|j']; [eapply KL; [|exact HH]; lia|].
      destruct (Nat.eqb (length xs) (length ys)) eqn:L; [|eapply KL; [|exact HH]; lia]. apply Nat.eqb_eq in L.
      cbn [get_fresh_name] in HH. destruct (split_fuel j') as [j1 j2] eqn:SF.
      assert (SJ : j1 + j2 = j').
      { unfold split_fuel in SF. injection SF as <- <-. pose proof (Nat.div2_odd j'). lia. }
      destruct (inl d' j1 b _ _ s' _) as [b' w1] eqn:E1. pose proof (inline_next _ _ _ _ _ _ _ _ _ _ _ E1) as N1. cbn in N1.
      destruct (inline_letapp b' (next_var w)) as [[C x']|] eqn:IL; [|eapply KL; [|exact HH]; lia].
      destruct (inl d' j2 e _ fm s'' _) as [ec' w2] eqn:E2. injection HH as <- <-.
      assert (FF : free f (Eletapp x f t ys e)) by (cbn; auto).
      assert (FY : forall y, In y ys -> free y (Eletapp x f t ys e)) by (cbn; auto).
      assert (L' : length (apply_r_list sig ys) = length xs) by (unfold apply_r_list; rewrite map_length; auto).
      destruct (inline_syn St IH d' _ _ _ _ _ _ _ _ E1) as (S1 & S2 & S3 & S4).
      { intros y Ny. destruct (need_inlined f ft xs b fm sig ys _ y GF L FY Ny) as (z & Nz & Ez).
        specialize (BL z Nz). rewrite <- Ez in BL. cbn [next_var]. eapply Pos.lt_le_trans; [exact BL|lia]. }
      { destruct (wf_inline fm f ft xs b WF GF) as (_ & W2 & _). eapply ewf_fnd; eauto. }
      { destruct (wf_inline fm f ft xs b WF GF) as (W1 & _ & _). apply fmwf_fnd; auto. }
      cbn [next_var] in S1, S3.
      subst j'. apply (erel_inline_let j1 j2 k x f t ys e rho1 rho2 b' (next_var w) C x' ec' ft xs b); [lia|exact IL| |].
      + intros v Gv.
        eapply (sem_inlined (S d') d' j1 f ft xs b ys (Eletapp x f t ys e) sig fm s' w _ b' w1 k rho1 rho2 v);
          [apply IHd; lia|lia|exact GF|exact L|exact FF|exact FY|exact E1|lia|exact WF|exact BL|cbn; lia|exact INV|exact Gv].
      + intros i v1 v2 rho2' I V GX GO.
        eapply (sem_bind (S d') d' j2 e (Eletapp x f t ys e) x x' sig fm s'' w _ ec' w2 k i);
          [apply IHd; lia|reflexivity|cbn; auto|exact E2|lia|exact WF|exact WE|exact BL|cbn; lia| |exact INV|lia|lia
          |exact GX|exact V|].
        * cbn. destruct (letapp_var _ _ _ _ IL) as [->|[K|K]].
          -- lia.
          -- apply S3 in K. lia.
          -- destruct (S4 _ K) as (y & Ny & ->).
             destruct (need_inlined f ft xs b fm sig ys _ y GF L FY Ny) as (z & Nz & Ez).
             specialize (BL z Nz). rewrite <- Ez in BL. eapply Pos.lt_le_trans; [exact BL|lia].
        * intros y Ny. apply GO.
          -- specialize (BL y Ny). lia.
          -- intro K. apply S3 in K. specialize (BL y Ny). lia.
    - (* Efun *)
      rewrite inl_Efun in HH. cbv zeta in HH.
      destruct (update_funDef IH B sig s) as [s1 s2].
      destruct (get_fresh_names (fnames B) w) as [names' w1] eqn:EN.
      destruct (inl_fds St IH _ sig _ B s1 w1) as [B' w2] eqn:EB.
      destruct (inl d j e _ _ s2 w2) as [e1 w3] eqn:EE. injection HH as <- <-.
      apply fresh_names_spec in EN as (L & N1 & ND & RN).
      set (sig' := set_list (combine (fnames B) names') sig) in *.
      set (fm' := add_fundefs B fm) in *.
      destruct (wf_fun B e fm WF WE) as [WF' WE']. fold fm' in WF', WE'.
      assert (SGI : forall y, In y (fnames B) -> In (apply_r sig' y) names').
      { intros y I. apply apply_r_set_list; auto. }
      assert (SGO : forall y, ~ In y (fnames B) -> apply_r sig' y = apply_r sig y).
      { intros y I. apply apply_r_set_list; auto. }
      assert (BV : forall f, In f (fnames B) -> In f (bv (Efun B e))).
      { intros f I. cbn. apply in_or_app. left. apply fnames_bv. auto. }
      assert (NFM : forall y f d, get f fm' = Some d -> fvb d y -> In y (fnames B) \/ need (Efun B e) fm y).
      { intros y f d0 Gf F. eapply need_fun; eauto. }
      assert (OLD : forall f d, get f fm = Some d -> forall y, fvb d y -> ~ In y (fnames B)).
      { intros f d0 Gf y Fy I. destruct WE as (_ & _ & W3). destruct (W3 f d0 Gf) as [_ W4].
        destruct (W4 y (BV y I)). auto. }
      assert (FMO : forall y, ~ In y (fnames B) -> get y fm' = get y fm).
      { intros y Ny. unfold fm'. rewrite get_add_fundefs. destruct (find_def y B) eqn:FD; [|auto].
        exfalso. apply Ny. apply find_def_fnames. congruence. }
      (* the transformed bundle *)
      assert (XB : forall B0 w1 B' w2,
         (forall f, In f (fnames B0) -> In f (fnames B)) ->
         inl_fds St IH (fun e sg f s w => inl d j e sg (mremove f fm') s w) sig sig' B0 s1 w1 = (B', w2) ->
         fnames B' = map (apply_r sig') (fnames B0) /\ (next_var w1 <= next_var w2)%positive /\
         forall f t xs b, find_def f B0 = Some (t, xs, b) -> exists s0 w0 xs' w0' b' w0'',
           (next_var w1 <= next_var w0)%positive /\ get_fresh_names xs w0 = (xs', w0') /\
           inl d j b (set_list (combine xs xs') sig') (mremove f fm') s0 w0' = (b', w0'') /\
           find_def (apply_r sig' f) B' = Some (t, xs', b')).
      { clear - L ND HAG sig'. intro B0. induction B0 as [f t xs b B0 IHB|]; intros w1 B' w2 HB HI.
        2:{ injection HI as <- <-. cbn. split; [auto|split; [lia|discriminate]]. }
        rewrite inl_fds_cons in HI.
        destruct (get_fresh_names xs w1) as [xs' w3] eqn:EX.
        destruct (inl d j b _ _ _ w3) as [b' w4] eqn:EB.
        destruct (inl_fds St IH _ sig sig' B0 s1 w4) as [B1 w5] eqn:EF.
        injection HI as <- <-.
        pose proof (inline_next _ _ _ _ _ _ _ _ _ _ _ EB) as N3.
        pose proof EX as EX'. apply fresh_names_spec in EX' as (LX & N4 & NDX & RX).
        destruct (IHB w4 B1 w5) as (Y1 & Y2 & Y3); [intros; apply HB; right; auto|exact EF|].
        split; [cbn; f_equal; exact Y1|]. split; [lia|].
        intros g t0 xs0 b0 FD. cbn [find_def] in FD. destruct (Pos.eq_dec g f) as [->|NE].
        - injection FD as <- <- <-. do 6 eexists. split; [|split; [exact EX|split; [exact EB|]]]; [lia|].
          cbn [find_def]. destruct (Pos.eq_dec (apply_r sig' f) (apply_r sig' f)); congruence.
        - destruct (Y3 g t0 xs0 b0 FD) as (s0 & w0 & xs1 & w0' & b1 & w0'' & Z1 & Z2 & Z3 & Z4).
          exists s0, w0, xs1, w0', b1, w0''. split; [lia|]. split; [auto|]. split; [auto|].
          cbn [find_def]. destruct (Pos.eq_dec (apply_r sig' g) (apply_r sig' f)) as [EQ|]; [|exact Z4].
          exfalso. apply NE. eapply (apply_r_inj (fnames B) names' sig); [exact L|exact ND| | |exact EQ].
          + apply HB. right. apply find_def_fnames. congruence.
          + apply HB. left. auto. }
      destruct (XB B w1 B' w2) as (X1 & X2 & X3); [auto|exact EB|]. clear XB.
      set (rho1f := def_funs B B rho1 rho1) in *.
      set (rho2f := def_funs B' B' rho2 rho2) in *.
      assert (NEW : forall y, need (Efun B e) fm y -> ~ In y (fnames B) ->
                 get (apply_r sig' y) rho2f = get (apply_r sig y) rho2).
      { intros y Ny I. rewrite (SGO y I). unfold rho2f. rewrite def_funs_get.
        destruct (in_dec Pos.eq_dec (apply_r sig y) (fnames B')) as [K|]; [|auto]. exfalso.
        rewrite X1 in K. apply in_map_iff in K as (g & Eg & Ig). apply SGI in Ig. rewrite Eg in Ig.
        apply RN in Ig. specialize (BL y Ny). lia. }
      assert (R1O : forall y, ~ In y (fnames B) -> get y rho1f = get y rho1).
      { intros y I. unfold rho1f. rewrite def_funs_get. destruct (in_dec Pos.eq_dec y (fnames B)); [tauto|auto]. }
      assert (R1I : forall y, In y (fnames B) -> get y rho1f = Some (Vfun rho1 B y)).
      { intros y I. unfold rho1f. rewrite def_funs_get. destruct (in_dec Pos.eq_dec y (fnames B)); [auto|tauto]. }
      (* environments of functions, given that the closures are related *)
      assert (KN : forall i, i <= k ->
        (forall y, In y (fnames B) -> AR i rho1f y rho2f (apply_r sig' y)) ->
        (forall y, In y (fnames B) \/ free y (Efun B e) -> AR i rho1f y rho2f (apply_r sig' y)) /\
        forall n fm'' (X' : var -> Prop), n <= d ->
          (forall f dd, get f fm'' = Some dd -> get f fm' = Some dd) ->
          (forall y, X' y -> In y (fnames B) \/ free y (Efun B e)) ->
          known n i rho2f sig' fm'' rho1f X').
      { intros i I CL.
        assert (CL' : forall y, In y (fnames B) \/ free y (Efun B e) -> AR i rho1f y rho2f (apply_r sig' y)).
        { intros y K. destruct (in_dec Pos.eq_dec y (fnames B)) as [Iy|Iy]; [auto|].
          destruct K as [K|K]; [tauto|].
          eapply arel_change; [apply INV; exact K|exact I|apply R1O; auto|apply NEW; [left; auto|auto]]. }
        split; [exact CL'|].
        induction n as [|n IHn]; intros fm'' X' Hn HM HX; [exact Logic.I|].
        cbn [known]. intros f dd v Xf Gf Gv. pose proof (HM f dd Gf) as Gf'.
        unfold fm' in Gf'. rewrite get_add_fundefs in Gf'. destruct (find_def f B) as [d0|] eqn:FD.
        - injection Gf' as ->. assert (If : In f (fnames B)) by (apply find_def_fnames; congruence).
          rewrite (R1I f If) in Gv. injection Gv as <-. exists rho1, B. split; [auto|]. split; [auto|].
          assert (FVB : forall y, fvb dd y -> In y (fnames B) \/ free y (Efun B e)).
          { intros y Fy. destruct (in_dec Pos.eq_dec y (fnames B)); [auto|right]. destruct dd as [[t0 xs0] b0].
            destruct Fy as [Fy Ny]. cbn. split; [auto|right]. eapply find_def_free; eauto. }
          fold rho1f. split; [intros y Fy; apply CL'; auto|].
          apply IHn; [lia| |exact FVB]. intros g dg Gg. apply mremove_get in Gg as [_ Gg]. auto.
        - assert (If : ~ In f (fnames B)) by (intro K; apply find_def_fnames in K; congruence).
          rewrite (R1O f If) in Gv. destruct INV as [_ KN].
          apply (known_dec d (S n)) in KN; [|exact Hn]. cbn [known] in KN.
          assert (Ff : free f (Efun B e)) by (destruct (HX f Xf); [tauto|auto]).
          destruct (KN f dd v Ff Gf' Gv) as (rhoc & B0 & -> & FD0 & AR1 & K1).
          exists rhoc, B0. split; [auto|]. split; [auto|]. split.
          + intros y Fy. eapply arel_change; [apply AR1; exact Fy|exact I|auto|].
            apply NEW; [right; eauto|eapply OLD; eauto].
          + eapply known_change; [exact K1|exact I| |].
            * intros g dg Fg Gg. apply mremove_get in Gg as [NE Gg]. split; [auto|]. split; [|auto].
              rewrite get_mremove. destruct (Pos.eq_dec g f); [congruence|]. rewrite <- (FMO g); [auto|].
              eapply OLD; eauto.
            * intros g dg Gg y Fy. apply mremove_get in Gg as [NE Gg]. pose proof (OLD g dg Gg y Fy) as Iy.
              split; [apply NEW; [right; eauto|auto]|]. intros d' Gy. apply mremove_get in Gy as [NEy Gy].
              rewrite get_mremove. destruct (Pos.eq_dec y f); [congruence|]. rewrite <- (FMO y Iy). auto. }
      (* the closures *)
      assert (CL : forall i, i <= k -> forall f, In f (fnames B) ->
                 VR i (Vfun rho1 B f) (Vfun rho2 B' (apply_r sig' f))).
      { intro i. induction i as [i IHi] using lt_wf_ind. intros I f If. apply vrel_fun.
        intros t xs1 b1 vs1 rho1' vs2 FD SL LV. fold rho1f in SL. fold rho2f.
        destruct (X3 f t xs1 b1 FD) as (s0 & w0 & xs' & w0' & b' & w0'' & Z1 & Z2 & Z3 & Z4).
        apply fresh_names_spec in Z2 as (LX & N4 & NDX & RX).
        assert (S' : length xs' = length vs2).
        { rewrite LX, <- LV. eapply set_lists_length; exact SL. }
        destruct (set_lists_total xs' vs2 rho2f S') as [rho2' S2].
        exists xs', b', rho2'. split; [exact Z4|]. split; [exact S2|].
        intros i' I' FV.
        destruct (KN i' ltac:(lia)) as [AR1 KN1].
        { intros y Iy v Gv. rewrite (R1I y Iy) in Gv. injection Gv as <-. eexists. split.
          - unfold rho2f. rewrite def_funs_get. destruct (in_dec Pos.eq_dec (apply_r sig' y) (fnames B')) as [|K]; [reflexivity|].
            exfalso. apply K. rewrite X1. apply in_map. auto.
          - apply IHi; [lia|lia|auto]. }
        assert (Gf : get f fm' = Some (t, xs1, b1)) by (unfold fm'; rewrite get_add_fundefs, FD; auto).
        destruct (wf_inline fm' f t xs1 b1 WF' Gf) as (W1 & W2 & W3).
        assert (FVB : forall y, fvb (t, xs1, b1) y -> In y (fnames B) \/ free y (Efun B e)).
        { intros y [Fy Ny]. destruct (in_dec Pos.eq_dec y (fnames B)); [auto|right].
          cbn. split; [auto|right]. eapply find_def_free; eauto. }
        assert (SB : forall y, In y (fnames B) \/ need (Efun B e) fm y -> (apply_r sig' y < next_var w1)%positive).
        { intros y K. destruct (in_dec Pos.eq_dec y (fnames B)) as [Iy|Iy].
          - apply SGI in Iy. apply RN in Iy. lia.
          - rewrite (SGO y Iy). destruct K as [K|K]; [tauto|]. specialize (BL y K). lia. }
        apply erel_weaken with (P := lin A (2 * j)); [intros bb c1 c2; apply lin_weaken; exact J|].
        eapply (IHe f t xs1 b1 (find_def_flist _ _ _ _ _ FD) j); [exact Z3|exact J|exact W1|exact W2| |].
        - intros y Ny. destruct (apply_r_set_list xs1 xs' sig' y LX) as [P1 P2].
          destruct (in_dec Pos.eq_dec y xs1) as [Iy|Iy]; [specialize (P1 Iy); apply RX in P1; apply P1|].
          rewrite (P2 Iy). assert (apply_r sig' y < next_var w1)%positive; [|lia]. apply SB.
          destruct Ny as [Fy|(g & d0 & Gg & Fg)]; [|apply mremove_get in Gg as [_ Gg]; eauto].
          destruct (FVB y (conj Fy Iy)); [auto|right; left; auto].
        - eapply (inv_binds d i' i' rho1f rho2f (fvb (t, xs1, b1)) sig' (mremove f fm') _ _ _ _ _ xs1).
          + split; [intros y Fy; apply AR1; auto|]. apply KN1; [lia| |exact FVB].
            intros g dg Gg. apply mremove_get in Gg as [_ Gg]. auto.
          + apply le_n.
          + intros y Fy Ny. split; auto.
          + exact W3.
          + auto.
          + intros y Ny. split; [eapply set_lists_not_In; eauto|]. apply apply_r_set_list; auto.
          + intros y K Ny. eapply set_lists_not_In; [exact S2|]. intro Iy. apply RX in Iy.
            assert (apply_r sig' y < next_var w1)%positive; [|lia]. apply SB.
            destruct K as [Fy|(g & d0 & Gg & Fg)]; [|apply mremove_get in Gg as [_ Gg]; eauto].
            destruct (FVB y Fy); [auto|right; left; auto].
          + intros y Iy. eapply params_arel; [exact SL| |exact Iy]. eapply set_lists_bound; eauto. }
      apply erel_fun with (P := lin A (2 * j)); [apply lin_step; lia|].
      intros i I. fold rho1f. fold rho2f.
      destruct (KN i ltac:(lia)) as [AR1 KN1].
      { intros y Iy v Gv. rewrite (R1I y Iy) in Gv. injection Gv as <-. eexists. split.
        - unfold rho2f. rewrite def_funs_get. destruct (in_dec Pos.eq_dec (apply_r sig' y) (fnames B')) as [|K]; [reflexivity|].
          exfalso. apply K. rewrite X1. apply in_map. auto.
        - apply CL; [lia|auto]. }
      assert (FE : forall y, free y e -> In y (fnames B) \/ free y (Efun B e)).
      { intros y Fy. destruct (in_dec Pos.eq_dec y (fnames B)); [auto|right; cbn; auto]. }
      eapply IHe0; [exact EE|exact J|exact WF'|exact WE'| |].
      + intros y Ny. assert (apply_r sig' y < next_var w1)%positive; [|lia].
        destruct (in_dec Pos.eq_dec y (fnames B)) as [Iy|Iy].
        * apply SGI in Iy. apply RN in Iy. lia.
        * rewrite (SGO y Iy). assert (apply_r sig y < next_var w)%positive; [|lia]. apply BL.
          destruct Ny as [Fy|(g & d0 & Gg & Fg)].
          -- left. cbn. auto.
          -- destruct (NFM y g d0 Gg Fg); [tauto|auto].
      + split; [intros y Fy; apply AR1; auto|]. apply KN1; [lia|auto|exact FE].
    - (* Eapp *)
      rewrite inl_Eapp in HH. cbv zeta in HH. destruct (update_App IH f t (apply_r_list sig ys) s) as [s' dec].
      assert (KA : ER j k rho1 (Eapp f t ys) rho2 (Eapp (apply_r sig f) t (apply_r_list sig ys))).
      { apply erel_app.
        - apply lin_step; lia.
        - apply INV. cbn. auto.
        - apply args_AR. intros y Iy. apply INV. cbn. auto. }
      destruct dec; [|injection HH as <- <-; exact KA].
      destruct (get f fm) as [[[ft xs] b]|] eqn:GF; [|injection HH as <- <-; exact KA].
      destruct d as [|d']; [injection HH as <- <-; exact KA|]. destruct j as [|j']; [injection HH as <- <-; exact KA|].
      destruct (Nat.eqb (length xs) (length ys)) eqn:L; [|injection HH as <- <-; exact KA]. apply Nat.eqb_eq in L.
      apply (erel_inline_app (lin A (2 * j')) (lin A (2 * S j')) k f t ys rho1 rho2 e' ft xs b).
      + cbn. lia.
      + intros bb c1 c2. unfold lin. destruct bb; lia.
      + intros v Gv.
        eapply (sem_inlined (S d') d' j' f ft xs b ys (Eapp f t ys) sig fm s' w _ e' w' k rho1 rho2 v);
          [apply IHd; lia|lia|exact GF|exact L|cbn; auto|cbn; auto|exact HH|lia|exact WF|exact BL|cbn; lia|exact INV|exact Gv].
    - (* Eprim_val *)
      intros c1 r1 C0 BS. inversion BS as [? ? ? C1|? ? ? ? C1]; subst; [|inversion C1].
      exists 0, OOT. split; [apply bstep_fuel_zero|]. split; [cbn; lia|exact I].
    - intros c1 r1 C0 BS. inversion BS as [? ? ? C1|? ? ? ? C1]; subst; [|inversion C1].
      exists 0, OOT. split; [apply bstep_fuel_zero|]. split; [cbn; lia|exact I].
    - (* Ehalt *)
      rewrite inl_Ehalt in HH. injection HH as <- <-. apply erel_halt; [cbn; lia|cbn; lia|].
      apply INV. reflexivity.
    - intros f0 t0 xs0 b0 [EQ|I0]; [injection EQ as -> -> -> ->; exact IHe|eauto].
  Qed.
End Sem.

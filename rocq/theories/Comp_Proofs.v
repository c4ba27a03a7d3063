(** * Proofs about the compilation state and the pipeline *)
From Coq Require Import ZArith NArith PArith List Lia Bool String.
From Verif Require Import ANF_Syntax ANF_Spec ANF_Scope Comp_Model.
Import ListNotations.

(** ** [max_var] *)

(** every occurrence of a name *)
Fixpoint allv (e : exp) : list var :=
  match e with
  | Econstr x _ ys e => x :: ys ++ allv e
  | Ecase x cl => x :: flat_map (fun p => allv (snd p)) cl
  | Eproj x _ _ y e => x :: y :: allv e
  | Eletapp x f _ ys e => x :: f :: ys ++ allv e
  | Efun B e => allv_funs B ++ allv e
  | Eapp f _ ys => f :: ys
  | Eprim_val x _ e => x :: allv e
  | Eprim x _ ys e => x :: ys ++ allv e
  | Ehalt x => [x]
  end
with allv_funs (B : fundefs) : list var :=
  match B with
  | Fcons f _ xs e B' => f :: xs ++ allv e ++ allv_funs B'
  | Fnil => []
  end.

Lemma free_case x y cl :
  free x (Ecase y cl) <-> x = y \/ exists p, In p cl /\ free x (snd p).
Proof.
  cbn. apply or_iff_compat_l. induction cl as [|p cl IH]; cbn.
  - split; [tauto|]. intros (? & [] & _).
  - rewrite IH. split.
    + intros [F|(q & I & F)]; [exists p|exists q]; tauto.
    + intros (q & [<-|I] & F); [tauto|]. right. exists q. tauto.
Qed.

Lemma fnames_bv B x : In x (fnames B) -> In x (bv_funs B).
Proof.
  induction B as [f t xs e B IH|]; cbn; [|tauto].
  rewrite !in_app_iff. intros [->|I]; auto.
Qed.

Lemma allv_spec :
  (forall e x, In x (allv e) <-> In x (bv e) \/ free x e) /\
  (forall B x, In x (allv_funs B) <-> In x (bv_funs B) \/ free_body x B).
Proof.
  apply exp_fundefs_ind; intros.
  - cbn. rewrite in_app_iff, H.
    destruct (Pos.eq_dec x0 x) as [->|]; intuition congruence.
  - rewrite free_case. cbn [allv bv]. cbn. rewrite !in_flat_map.
    rewrite Forall_forall in H. split.
    + intros [->|(p & I & A)]; [tauto|]. apply H in A; [|exact I].
      destruct A as [A|A]; [left; exists p|right; right; exists p]; tauto.
    + intros [(p & I & A)|[->|(p & I & A)]]; [right; exists p; split; [exact I|apply H; tauto]|tauto|].
      right; exists p; split; [exact I|apply H; tauto].
  - cbn. rewrite H. destruct (Pos.eq_dec x0 x) as [->|]; intuition congruence.
  - cbn. rewrite in_app_iff, H.
    destruct (Pos.eq_dec x0 x) as [->|]; intuition congruence.
  - cbn. rewrite !in_app_iff, H, H0.
    destruct (in_dec Pos.eq_dec x (fnames B)) as [I|N]; [|tauto].
    apply fnames_bv in I. tauto.
  - cbn. intuition congruence.
  - cbn. rewrite H. destruct (Pos.eq_dec x0 x) as [->|]; intuition congruence.
  - cbn. rewrite in_app_iff, H.
    destruct (Pos.eq_dec x0 x) as [->|]; intuition congruence.
  - cbn. intuition congruence.
  - cbn. rewrite !in_app_iff, H, H0.
    destruct (in_dec Pos.eq_dec x xs) as [I|N]; tauto.
  - cbn. tauto.
Qed.

(** the largest of [z] and the elements of [l] *)
Definition is_max (l : list var) (z m : positive) : Prop :=
  (m = z \/ In m l) /\ (z <= m)%positive /\ (forall x, In x l -> (x <= m)%positive).

Lemma is_max_app l1 l2 z m1 m2 :
  is_max l1 z m1 -> is_max l2 m1 m2 -> is_max (l1 ++ l2) z m2.
Proof.
  intros (A1 & A2 & A3) (B1 & B2 & B3). split; [|split].
  - rewrite in_app_iff. destruct B1 as [->|B1]; [|tauto]. destruct A1; tauto.
  - lia.
  - intro x. rewrite in_app_iff. intros [I|I]; [apply A3 in I; lia|auto].
Qed.

Lemma is_max_ext l l' z m : (forall x, In x l <-> In x l') -> is_max l z m -> is_max l' z m.
Proof.
  intros E (A & B & C). split; [rewrite <- E; exact A|]. split; [exact B|].
  intros x. rewrite <- E. auto.
Qed.

Lemma is_max_one x z : is_max [x] z (Pos.max z x).
Proof.
  split; [|split]; [|lia|].
  - cbn. destruct (Pos.max_spec z x) as [[_ ->]|[_ ->]]; auto.
  - cbn. intros y [<-|[]]. lia.
Qed.

Lemma max_list_spec l : forall z, is_max l z (max_list l z).
Proof.
  induction l as [|x l IH]; intro z; cbn [max_list].
  - split; [auto|]. split; [lia|]. intros ? [].
  - change (x :: l) with ([x] ++ l). eapply is_max_app; [|apply IH].
    rewrite Pos.max_comm. apply is_max_one.
Qed.

Lemma max_var_max :
  (forall e z, is_max (allv e) z (max_var e z)) /\
  (forall B z, is_max (allv_funs B) z (max_var_fundefs B z)).
Proof.
  apply exp_fundefs_ind; intros; cbn [allv allv_funs max_var max_var_fundefs].
  - change (x :: ys ++ allv e) with ((x :: ys) ++ allv e).
    eapply is_max_app; [apply max_list_spec|apply H].
  - apply is_max_ext with (l := flat_map (fun p : ctor_tag * exp => allv (snd p)) l ++ [x]).
    { intro y. cbn. rewrite in_app_iff. cbn. tauto. }
    revert z. induction H as [|[c e] cl A F IH]; intro z.
    + apply is_max_one.
    + cbn [flat_map snd]. rewrite <- app_assoc. eapply is_max_app; [apply A|apply IH].
  - change (x :: y :: allv e) with ([x; y] ++ allv e).
    eapply is_max_app; [apply max_list_spec|apply H].
  - change (x :: f :: ys ++ allv e) with ((x :: f :: ys) ++ allv e).
    eapply is_max_app; [apply max_list_spec|apply H].
  - eapply is_max_app; [apply H|apply H0].
  - apply max_list_spec.
  - change (x :: allv e) with ([x] ++ allv e).
    eapply is_max_app; [apply max_list_spec|apply H].
  - change (x :: ys ++ allv e) with ((x :: ys) ++ allv e).
    eapply is_max_app; [apply max_list_spec|apply H].
  - apply is_max_one.
  - apply is_max_ext with (l := allv e ++ (f :: xs) ++ allv_funs B).
    { intro y. cbn. rewrite !in_app_iff. cbn. rewrite !in_app_iff. tauto. }
    eapply is_max_app; [apply H|]. eapply is_max_app; [apply max_list_spec|apply H0].
  - split; [auto|]. split; [lia|]. intros ? [].
Qed.

(** ** Requests to the state *)

(** what a pass can ask *)
Inductive request :=
| Rname (old : var) (suff : string)
| Rname' (old : var) (suff : string) (olds : name_env)
| Rnames (old : list var) (suff : string)
| Rnames' (old : list var) (suff : string) (olds : name_env)
| Rnamed (n : name)
| Rnamed_lst (l : list name)
| Rnamed_str (s : string)
| Rrecord (n : N)
| Rftag (arity : N)
| Rlog (msg : string).

(** what it gets: variables, a constructor tag, a function tag *)
Inductive answer := Avars (xs : list var) | Actag (c : ctor_tag) | Aftag (f : fun_tag) | Anone.

Section Requests.
  Context {S : Type}.

  Definition one {A} (f : A -> answer) (m : compM' (S := S) A) : compM' (S := S) answer :=
    bind m (fun x => ret (f x)).

  (** answering one request with the functions of the state *)
  Definition serve (r : request) : compM' (S := S) answer :=
    match r with
    | Rname o s => one (fun x => Avars [x]) (get_name o s)
    | Rname' o s m => one (fun x => Avars [x]) (get_name' o s m)
    | Rnames o s => one Avars (get_names_lst o s)
    | Rnames' o s m => one Avars (get_names_lst' o s m)
    | Rnamed n => one (fun x => Avars [x]) (get_named n)
    | Rnamed_lst l => one Avars (get_named_lst l)
    | Rnamed_str s => one (fun x => Avars [x]) (get_named_str s)
    | Rrecord n => one Actag (make_record_ctor_tag n)
    | Rftag n => one Aftag (get_ftag n)
    | Rlog msg => one (fun _ => Anone) (log_msg msg)
    end.

  Definition vars_of (l : list answer) := flat_map (fun a => match a with Avars xs => xs | _ => [] end) l.
  Definition ctags_of (l : list answer) := flat_map (fun a => match a with Actag c => [c] | _ => [] end) l.
  Definition ftags_of (l : list answer) := flat_map (fun a => match a with Aftag c => [c] | _ => [] end) l.

  (** the shape of the answer to a request, and what the tables say about it *)
  Definition fits (c : comp_data) (r : request) (a : answer) : Prop :=
    match r, a with
    | Rname _ _, Avars xs | Rname' _ _ _, Avars xs | Rnamed _, Avars xs | Rnamed_str _, Avars xs =>
        List.length xs = 1%nat
    | Rnames o _, Avars xs | Rnames' o _ _, Avars xs => List.length xs = List.length o
    | Rnamed_lst l, Avars xs => List.length xs = List.length l
    | Rrecord n, Actag t =>
        exists i, (i < next_ind_tag c)%positive /\
          get t (cenv c) = Some {| ctor_ind_tag := i; ctor_arity := n; ctor_ordinal := 0%N |}
    | Rftag n, Aftag t =>
        exists ps, get t (fenv c) = Some (n, ps) /\ List.length ps = N.to_nat n /\
          (forall k, (k < N.to_nat n)%nat -> nth_error ps k = Some (N.of_nat k))
    | Rlog _, Anone => True
    | _, _ => False
    end.

  Definition later (c c' : comp_data) : Prop :=
    (next_var c <= next_var c')%positive /\
    (nect_ctor_tag c <= nect_ctor_tag c')%positive /\
    (next_ind_tag c <= next_ind_tag c')%positive /\
    (next_fun_tag c <= next_fun_tag c')%positive /\
    (forall x, (x < next_var c)%positive -> get x (nenv c') = get x (nenv c)) /\
    (forall t, (t < nect_ctor_tag c)%positive -> get t (cenv c') = get t (cenv c)) /\
    (forall t, (t < next_fun_tag c)%positive -> get t (fenv c') = get t (fenv c)) /\
    inline_map c' = inline_map c.

  Definition within {A} (lo hi : positive) (l : list positive) (_ : A) :=
    NoDup l /\ forall x, In x l -> (lo <= x < hi)%positive.

  Definition good (c c' : comp_data) (l : list answer) : Prop :=
    later c c' /\
    NoDup (vars_of l) /\ (forall x, In x (vars_of l) -> (next_var c <= x < next_var c')%positive /\
                                     get x (nenv c') <> None) /\
    NoDup (ctags_of l) /\ (forall t, In t (ctags_of l) -> (nect_ctor_tag c <= t < nect_ctor_tag c')%positive) /\
    NoDup (ftags_of l) /\ (forall t, In t (ftags_of l) -> (next_fun_tag c <= t < next_fun_tag c')%positive).

  Lemma later_refl c : later c c.
  Proof. unfold later. repeat split; auto; lia. Qed.

  Lemma later_trans a b c : later a b -> later b c -> later a c.
  Proof.
    intros (A1 & A2 & A3 & A4 & A5 & A6 & A7 & A8) (B1 & B2 & B3 & B4 & B5 & B6 & B7 & B8).
    split; [lia|]. split; [lia|]. split; [lia|]. split; [lia|].
    split; [|split; [|split]].
    - intros x L. rewrite B5 by lia. auto.
    - intros x L. rewrite B6 by lia. auto.
    - intros x L. rewrite B7 by lia. auto.
    - congruence.
  Qed.

  Lemma good_nil c : good c c [].
  Proof.
    split; [apply later_refl|]. cbn.
    split; [apply NoDup_nil|]. split; [intros ? []|]. split; [apply NoDup_nil|].
    split; [intros ? []|]. split; [apply NoDup_nil|]. intros ? [].
  Qed.

  Lemma NoDup_app_sep (l1 l2 : list positive) lo m hi :
    NoDup l1 -> NoDup l2 -> (forall x, In x l1 -> (lo <= x < m)%positive) ->
    (forall x, In x l2 -> (m <= x < hi)%positive) -> NoDup (l1 ++ l2).
  Proof.
    induction l1 as [|x l1 IH]; cbn; intros N1 N2 H1 H2; [exact N2|].
    inversion N1; subst. constructor.
    - rewrite in_app_iff. intros [I|I]; [tauto|]. specialize (H1 x (or_introl eq_refl)).
      specialize (H2 x I). lia.
    - apply IH; auto.
  Qed.

  Lemma good_app a b c l1 l2 : good a b l1 -> good b c l2 -> good a c (l1 ++ l2).
  Proof.
    intros (L1 & V1 & V1' & C1 & C1' & F1 & F1') (L2 & V2 & V2' & C2 & C2' & F2 & F2').
    pose proof L1 as (M1 & M2 & M3 & M4 & _). pose proof L2 as (K1 & K2 & K3 & K4 & K5 & _).
    assert (E1 : vars_of (l1 ++ l2) = vars_of l1 ++ vars_of l2) by apply flat_map_app.
    assert (E2 : ctags_of (l1 ++ l2) = ctags_of l1 ++ ctags_of l2) by apply flat_map_app.
    assert (E3 : ftags_of (l1 ++ l2) = ftags_of l1 ++ ftags_of l2) by apply flat_map_app.
    unfold good. rewrite E1, E2, E3.
    split; [eapply later_trans; eauto|].
    split; [eapply NoDup_app_sep; eauto; intros x I; [apply V1'|apply V2']; exact I|].
    split.
    { intros x I. apply in_app_or in I as [I|I].
      - destruct (V1' _ I) as [A B]. split; [lia|]. rewrite K5 by lia. exact B.
      - destruct (V2' _ I) as [A B]. split; [lia|exact B]. }
    split; [eapply NoDup_app_sep; eauto|].
    split. { intros x I. apply in_app_or in I as [I|I]; [apply C1' in I|apply C2' in I]; lia. }
    split; [eapply NoDup_app_sep; eauto|].
    intros x I. apply in_app_or in I as [I|I]; [apply F1' in I|apply F2' in I]; lia.
  Qed.

  (** one variable *)
  Lemma new_var n c i f e fv nm im lg nm' :
    (forall x, (x < n)%positive -> get x nm' = get x nm) -> get n nm' <> None ->
    good (mkCompData n c i f e fv nm im lg) (mkCompData (n + 1)%positive c i f e fv nm' im lg) [Avars [n]].
  Proof.
    intros H G. split; [|split; [|split; [|split; [|split; [|split]]]]]; cbn.
    - unfold later; cbn. repeat split; auto; lia.
    - constructor; [intros []|apply NoDup_nil].
    - intros x [<-|[]]. split; [lia|exact G].
    - apply NoDup_nil.
    - intros ? [].
    - apply NoDup_nil.
    - intros ? [].
  Qed.

  Lemma add_entry_ok nm n o s :
    (forall x, (x < n)%positive -> get x (add_entry nm n o s) = get x nm) /\ get n (add_entry nm n o s) <> None.
  Proof.
    unfold add_entry. split.
    - intros x L. destruct (get o nm) as [[|?]|]; rewrite get_set_other by lia; reflexivity.
    - destruct (get o nm) as [[|?]|]; rewrite get_set_same; discriminate.
  Qed.

  Lemma add_entry_map_ok nm old n o s :
    (forall x, (x < n)%positive -> get x (add_entry_from_map nm old n o s) = get x nm) /\
    get n (add_entry_from_map nm old n o s) <> None.
  Proof.
    unfold add_entry_from_map. split.
    - intros x L. destruct (get o old) as [[|?]|]; rewrite get_set_other by lia; reflexivity.
    - destruct (get o old) as [[|?]|]; rewrite get_set_same; discriminate.
  Qed.

  Lemma get_name_ok o s c st :
    exists c', get_name (S := S) o s tt (c, st) = (Ret (next_var c), (c', st)) /\
      good c c' [Avars [next_var c]].
  Proof.
    destruct c as [n c i f e fv nm im lg]. eexists. split; [cbv [get_name bind getM putM ret]; reflexivity|].
    destruct (add_entry_ok nm n o s) as [A B]. apply new_var; assumption.
  Qed.

  Lemma get_name'_ok o s m c st :
    exists c', get_name' (S := S) o s m tt (c, st) = (Ret (next_var c), (c', st)) /\
      good c c' [Avars [next_var c]].
  Proof.
    destruct c as [n c i f e fv nm im lg]. eexists. split; [cbv [get_name' bind getM putM ret]; reflexivity|].
    destruct (add_entry_map_ok nm m n o s) as [A B]. apply new_var; assumption.
  Qed.

  Lemma get_named_ok nme c st :
    exists c', get_named (S := S) nme tt (c, st) = (Ret (next_var c), (c', st)) /\
      good c c' [Avars [next_var c]].
  Proof.
    destruct c as [n c i f e fv nm im lg]. eexists. split; [cbv [get_named bind getM putM ret]; reflexivity|].
    apply new_var.
    - intros x L. rewrite get_set_other by (cbn in L; lia). reflexivity.
    - rewrite get_set_same. discriminate.
  Qed.

  Lemma get_named_str_ok s c st :
    exists c', get_named_str (S := S) s tt (c, st) = (Ret (next_var c), (c', st)) /\
      good c c' [Avars [next_var c]].
  Proof.
    destruct c as [n c i f e fv nm im lg]. eexists. split; [cbv [get_named_str bind getM putM ret]; reflexivity|].
    apply new_var; unfold add_entry_str.
    - intros x L. rewrite get_set_other by (cbn in L; lia). reflexivity.
    - rewrite get_set_same. discriminate.
  Qed.

  Lemma mapM_ok {A} (f : A -> compM' (S := S) var) :
    (forall a c st, exists c', f a tt (c, st) = (Ret (next_var c), (c', st)) /\ good c c' [Avars [next_var c]]) ->
    forall l c st, exists xs c', mapM f l tt (c, st) = (Ret xs, (c', st)) /\
      List.length xs = List.length l /\ good c c' [Avars xs].
  Proof.
    intros H. induction l as [|a l IH]; intros c st.
    - exists [], c. split; [reflexivity|]. split; [reflexivity|].
      pose proof (good_nil c) as G. exact G.
    - destruct (H a c st) as (c1 & E1 & G1). destruct (IH c1 st) as (xs & c2 & E2 & L & G2).
      exists (next_var c :: xs), c2. split; [|split].
      + cbn [mapM]. unfold bind. rewrite E1, E2. reflexivity.
      + cbn. congruence.
      + pose proof (good_app _ _ _ _ _ G1 G2) as G. unfold good in G |- *. cbn in G |- *. exact G.
  Qed.

  Lemma fromN_spec m : forall n, List.length (fromN n m) = m /\
    (forall k, (k < m)%nat -> nth_error (fromN n m) k = Some (n + N.of_nat k)%N).
  Proof.
    induction m as [|m IH]; intro n; cbn [fromN].
    - split; [reflexivity|]. intros k L. lia.
    - destruct (IH (N.succ n)) as [A B]. split; [cbn; congruence|].
      intros [|k] L; cbn [nth_error]; [f_equal; lia|]. rewrite B by lia. f_equal. lia.
  Qed.

  Lemma serve_ok r c st :
    exists a c', serve r tt (c, st) = (Ret a, (c', st)) /\ fits c' r a /\ good c c' [a].
  Proof.
    destruct r as [o s|o s m|o s|o s m|n|l|s|n|n|msg]; cbn [serve]; unfold one, bind at 1.
    - destruct (get_name_ok o s c st) as (c' & -> & G). do 2 eexists. split; [reflexivity|]. split; [reflexivity|exact G].
    - destruct (get_name'_ok o s m c st) as (c' & -> & G). do 2 eexists. split; [reflexivity|]. split; [reflexivity|exact G].
    - destruct (mapM_ok (fun o => get_name o s) (fun o => get_name_ok o s) o c st) as (xs & c' & E & L & G).
      unfold get_names_lst. rewrite E. do 2 eexists. split; [reflexivity|]. split; [exact L|exact G].
    - destruct (mapM_ok (fun o => get_name' o s m) (fun o => get_name'_ok o s m) o c st) as (xs & c' & E & L & G).
      unfold get_names_lst'. rewrite E. do 2 eexists. split; [reflexivity|]. split; [exact L|exact G].
    - destruct (get_named_ok n c st) as (c' & -> & G). do 2 eexists. split; [reflexivity|]. split; [reflexivity|exact G].
    - destruct (mapM_ok get_named get_named_ok l c st) as (xs & c' & E & L & G).
      unfold get_named_lst. rewrite E. do 2 eexists. split; [reflexivity|]. split; [exact L|exact G].
    - destruct (get_named_str_ok s c st) as (c' & -> & G). do 2 eexists. split; [reflexivity|]. split; [reflexivity|exact G].
    - destruct c as [x c i f e fv nm im lg]. do 2 eexists. split; [reflexivity|].
      split.
      + cbn. exists i. split; [lia|]. destruct (Pos.eq_dec c c); congruence.
      + split; [|split; [|split; [|split; [|split; [|split]]]]]; cbn.
        * unfold later; cbn. split; [lia|]. split; [lia|]. split; [lia|]. split; [lia|]. split; [auto|].
          split; [|auto]. intros t L. destruct (Pos.eq_dec t c); [lia|reflexivity].
        * apply NoDup_nil.
        * intros ? [].
        * constructor; [intros []|apply NoDup_nil].
        * intros t [<-|[]]. lia.
        * apply NoDup_nil.
        * intros ? [].
    - destruct c as [x c i f e fv nm im lg]. do 2 eexists. split; [reflexivity|].
      destruct (fromN_spec (N.to_nat n) 0%N) as [A B].
      split.
      + cbn. exists (fromN 0 (N.to_nat n)). destruct (Pos.eq_dec f f); [|congruence].
        split; [reflexivity|]. split; [exact A|]. intros k L. rewrite B by exact L. f_equal; lia.
      + split; [|split; [|split; [|split; [|split; [|split]]]]]; cbn.
        * unfold later; cbn. split; [lia|]. split; [lia|]. split; [lia|]. split; [lia|]. split; [auto|].
          split; [auto|]. split; [|auto]. intros t L. destruct (Pos.eq_dec t f); [lia|reflexivity].
        * apply NoDup_nil.
        * intros ? [].
        * apply NoDup_nil.
        * intros ? [].
        * constructor; [intros []|apply NoDup_nil].
        * intros t [<-|[]]. lia.
    - destruct c as [x c i f e fv nm im lg]. do 2 eexists. split; [reflexivity|].
      split; [exact Logic.I|].
      split; [|split; [|split; [|split; [|split; [|split]]]]]; cbn.
      * unfold later; cbn. repeat split; auto; lia.
      * apply NoDup_nil.
      * intros ? [].
      * apply NoDup_nil.
      * intros ? [].
      * apply NoDup_nil.
      * intros ? [].
  Qed.

  Lemma fits_later c c' r a l c0 : good c0 c l -> In a l -> later c c' -> fits c r a -> fits c' r a.
  Proof.
    intros G I (L1 & L2 & L3 & L4 & L5 & L6 & L7 & _) F.
    destruct r, a; cbn in F |- *; try exact F.
    - destruct F as (i & Li & E). exists i. split; [lia|]. rewrite L6; [exact E|].
      destruct G as (_ & _ & _ & _ & G & _). apply G. apply in_flat_map.
      eexists; split; [exact I|]. cbn. auto.
    - destruct F as (ps & E & F). exists ps. split; [|exact F]. rewrite L7; [exact E|].
      destruct G as (_ & _ & _ & _ & _ & _ & G). apply G. apply in_flat_map.
      eexists; split; [exact I|]. cbn. auto.
  Qed.

  Lemma serve_all_ok : forall rs c st,
    exists l c', mapM serve rs tt (c, st) = (Ret l, (c', st)) /\
      Forall2 (fits c') rs l /\ good c c' l.
  Proof.
    induction rs as [|r rs IH]; intros c st.
    - exists [], c. split; [reflexivity|]. split; [constructor|apply good_nil].
    - destruct (serve_ok r c st) as (a & c1 & E1 & F1 & G1).
      destruct (IH c1 st) as (l & c2 & E2 & F2 & G2).
      exists (a :: l), c2. split; [|split].
      + cbn [mapM]. unfold bind. rewrite E1, E2. reflexivity.
      + constructor; [|exact F2]. eapply fits_later; [exact G1| | |exact F1].
        * left; reflexivity.
        * apply G2.
      + exact (good_app _ _ _ _ _ G1 G2).
  Qed.
End Requests.

(** ** The initial state *)
Lemma fold_max_ge (m : fun_env) : forall z, (z <= fold_left (fun cm p => Pos.max cm (fst p)) m z)%positive /\
  (forall t v, get t m = Some v -> (t <= fold_left (fun cm p => Pos.max cm (fst p)) m z)%positive).
Proof.
  induction m as [|[t v] m IH]; intro z; cbn [fold_left fst].
  - split; [lia|]. discriminate.
  - destruct (IH (Pos.max z t)) as [A B]. split; [lia|].
    intros t' v'. cbn. destruct (Pos.eq_dec t' t) as [->|]; [|apply B]. intros _. lia.
Qed.

(** Soundness and completeness of the table-based extraction. *)
From Coq Require Import NArith Arith List Bool Lia FinFun.
From Verif Require Import AligSpec AligModel ExtrSpec ExtrModel ExtrBase ExtrCell.
Import ListNotations.
Lemma skipn_nth : forall (W : Type) (l : list W) n w, nth_error l n = Some w -> skipn n l = w :: skipn (S n) l.
Proof. induction l as [|x l IH]; intros [|n] w H; cbn in *; try discriminate; [congruence|]. rewrite (IH n w H). reflexivity. Qed.
Lemma pick_seq : forall (W : Type) (l : list W) n a, a + n <= length l -> pick_words l (seq a n) = firstn n (skipn a l).
Proof.
  intros W l n; induction n as [|n IH]; intros a H; [reflexivity|]. unfold pick_words. cbn [seq flat_map]. fold (pick_words l (seq (S a) n)). rewrite IH by lia.
  destruct (nth_error l a) as [w|] eqn:E; [|apply nth_error_None in E; lia]. rewrite (skipn_nth _ l a w E). reflexivity.
Qed.
Lemma filter_none : forall (X : Type) (f : X -> bool) l, (forall x, In x l -> f x = false) -> filter f l = [].
Proof. induction l as [|x l IH]; intros H; [reflexivity|]. cbn. rewrite H by (left; reflexivity). apply IH. intros; apply H; right; auto. Qed.
Lemma filter_all : forall (X : Type) (f : X -> bool) l, (forall x, In x l -> f x = true) -> filter f l = l.
Proof. induction l as [|x l IH]; intros H; [reflexivity|]. cbn. rewrite H by (left; reflexivity). f_equal. apply IH. intros; apply H; right; auto. Qed.
Lemma filter_range : forall c a n i1 i2, (forall k, a <= k < a + n -> (tst c k = true <-> i1 <= k <= i2)) -> a <= i1 -> i2 < a + n -> i1 <= i2 ->
  filter (tst c) (seq a n) = seq i1 (S i2 - i1).
Proof.
  intros c a n i1 i2 H H1 H2 H3. replace n with ((i1 - a) + ((S i2 - i1) + (a + n - S i2))) by lia. rewrite seq_app, seq_app, !filter_app.
  rewrite filter_none, filter_all, (filter_none _ _ (seq (a + (i1 - a) + (S i2 - i1)) _)).
  - rewrite app_nil_r. cbn. f_equal. lia.
  - intros k Hk. apply in_seq in Hk. destruct (tst c k) eqn:T; [|reflexivity]. apply H in T; lia.
  - intros k Hk. apply in_seq in Hk. apply H; lia.
  - intros k Hk. apply in_seq in Hk. destruct (tst c k) eqn:T; [|reflexivity]. apply H in T; lia.
Qed.
Lemma fold_add_acc : forall l a, fold_left N.add l a = (a + fold_right N.add 0 l)%N.
Proof. induction l as [|x l IH]; intros a; cbn; [rewrite N.add_0_r; reflexivity|]. rewrite IH, N.add_assoc. reflexivity. Qed.
Lemma nodup_pairs : forall (l m : list nat), NoDup l -> NoDup m -> NoDup (list_prod l m).
Proof.
  induction l as [|x l IH]; intros m Hl Hm; [constructor|]. cbn. apply NoDup_cons_iff in Hl. destruct Hl as [N Hl].
  assert (D : forall L, NoDup (map (fun y : nat => (x, y)) L) <-> NoDup L).
  { intros L. split; [apply NoDup_map_inv|]. intros H. induction H as [|y L Ny H IHL]; cbn; constructor; [|exact IHL]. intros Q. apply in_map_iff in Q. destruct Q as [z [E Hz]]. congruence. }
  assert (NA : forall (U V : list (nat * nat)), NoDup U -> NoDup V -> (forall p, In p U -> ~ In p V) -> NoDup (U ++ V)).
  { intros U V HU HV. induction HU as [|p U Np HU IHU]; intros Dj; [exact HV|]. cbn. constructor; [|apply IHU; intros; apply Dj; right; auto]. intros Q. apply in_app_or in Q. destruct Q as [Q|Q]; [auto|]. apply (Dj p); [left; reflexivity|exact Q]. }
  apply NA; [apply D; exact Hm|apply IH; assumption|]. intros p Hp Q. apply in_map_iff in Hp. destruct Hp as [y [<- Hy]]. apply in_prod_iff in Q. tauto.
Qed.
Section Ex.
Context {W : Type}.
Variables (A : wam) (ns t : list W) (P : epars).
Hypothesis DI : wI A = nslen ns - 1.
Hypothesis DJ : wJ A = tlen t.
Hypothesis NE : 2 <= nslen ns.
Notation TL := (tlen t).
Notation NL := (nslen ns).
Notation lk := (lnk A).
Lemma outside_full : forall c lm, outside_ok A ns t P c (TL - 1) (TL - 1) lm = true.
Proof. intros c lm. apply outside_spec; auto. intros. lia. Qed.
Lemma valid_sound : forall c x y, validCoverageForCell A ns t P c x y = true ->
  exists i1 i2, 1 <= i1 <= i2 /\ i2 < NL /\ (forall k, 1 <= k < NL -> (tst c k = true <-> i1 <= k <= i2)) /\ S i2 - i1 <= maxSrc P /\ outside_ok A ns t P c x y i1 = true.
Proof.
  intros c x y H. unfold validCoverageForCell in H. destruct ((x =? TL - 1) && (y =? TL - 1)) eqn:F.
  - apply andb_true_iff in F. destruct F as [F1 F2]. apply Nat.eqb_eq in F1, F2. subst. apply andb_true_iff in H. destruct H as [H _]. apply andb_true_iff in H. destruct H as [H1 H2]. apply Nat.leb_le in H2.
    rewrite forallb_forall in H1. exists 1, (NL - 1). split; [lia|]. split; [lia|]. split; [|split; [lia|apply outside_full]].
    intros k Hk. split; [lia|]. intros _. apply H1, in_seq. lia.
  - destruct (scan_cov c (seq 1 (NL - 1)) NL 0) as [[lm num]|] eqn:Sc; [|discriminate]. apply andb_true_iff in H. destruct H as [H H3]. apply andb_true_iff in H. destruct H as [H1 H2].
    apply negb_true_iff, Nat.eqb_neq in H1. apply Nat.leb_le in H2. apply (scan_step A ns t DI DJ) in Sc; [|lia|lia|left; repeat split; intros; lia].
    replace (1 + (NL - 1)) with NL in Sc by lia.
    destruct Sc as [[? _]|[i2 [B1 [B2 [-> I]]]]]; [lia|]. exists lm, i2. split; [lia|]. split; [lia|]. split; [exact I|]. split; [lia|exact H3].
Qed.
Lemma valid_complete : forall c x y i1 i2, 1 <= i1 <= i2 -> i2 < NL -> (forall k, 1 <= k < NL -> (tst c k = true <-> i1 <= k <= i2)) -> S i2 - i1 <= maxSrc P ->
  outside_ok A ns t P c x y i1 = true -> (x = TL - 1 -> y = TL - 1 -> i1 = 1 /\ i2 = NL - 1) -> validCoverageForCell A ns t P c x y = true.
Proof.
  intros c x y i1 i2 H1 H2 T M O F. unfold validCoverageForCell. destruct ((x =? TL - 1) && (y =? TL - 1)) eqn:Q.
  - apply andb_true_iff in Q. destruct Q as [F1 F2]. apply Nat.eqb_eq in F1, F2. destruct (F F1 F2) as [-> ->]. subst. rewrite outside_full.
    rewrite andb_true_r. apply andb_true_iff. split; [|apply Nat.leb_le; lia]. apply forallb_forall. intros k Hk. apply in_seq in Hk. apply T; lia.
  - rewrite (scan_ok A ns t DI DJ c i1 i2 T H1 H2). rewrite O, andb_true_r. apply andb_true_iff. split; [apply negb_true_iff, Nat.eqb_neq; lia|apply Nat.leb_le; exact M].
Qed.
(** the phrase pair made from a coverage *)
Lemma mk_pair_spec : forall x y c i1 i2, inr_cell t x y -> 1 <= i1 <= i2 -> i2 < NL -> length c = NL -> (forall k, 1 <= k < NL -> (tst c k = true <-> i1 <= k <= i2)) ->
  pp_s (mk_pair A ns t x y c) = words (tl ns) i1 i2 /\ pp_t (mk_pair A ns t x y c) = words t (TL - x) (S y) /\
  links_inside A i1 i2 (TL - x) (S y) (pp_sum (mk_pair A ns t x y c)) (pp_num (mk_pair A ns t x y c)).
Proof.
  intros x y c i1 i2 [Hy Hx] H1 H2 L T. unfold mk_pair.
  rewrite (filter_range c 1 NL i1 i2); [|intros k Hk; destruct (Nat.eq_dec k NL) as [->|N]; [|apply T; lia]|lia|lia|lia].
  2:{ split; [|lia]. intros Q. apply tst_lt in Q. lia. }
  cbn [pp_s pp_t pp_sum pp_num]. split; [|split].
  - unfold nslen in *. rewrite pick_seq by lia. unfold words. destruct ns as [|n0 ns']; [cbn in *; lia|]. cbn [tl]. f_equal. destruct i1 as [|i1]; [lia|]. cbn [skipn]. f_equal. lia.
  - unfold span, tlen in *. rewrite pick_seq by lia. unfold words. f_equal; lia.
  - set (I := seq i1 (S i2 - i1)). set (Z := span t x y).
    set (Pr := list_prod I Z). set (cells := flat_map (fun i => map (fun z => wc A (i - 1) z) Z) I).
    assert (Ec : cells = map (fun p => wc A (fst p - 1) (snd p)) Pr).
    { unfold cells, Pr. clear. induction I as [|i I IH]; [reflexivity|]. cbn [flat_map list_prod]. rewrite map_app, map_map. f_equal. exact IH. }
    set (F := filter (fun p => (0 <? wc A (fst p - 1) (snd p))%N) Pr).
    assert (NF : NoDup F) by (apply NoDup_filter, nodup_pairs; apply seq_NoDup).
    exists (map (fun p => (fst p, S (snd p))) F). split; [|split; [|split]].
    + clear -NF. induction NF as [|p L N H IH]; cbn; constructor; [|exact IH]. intros Q. apply in_map_iff in Q. destruct Q as [q [E Hq]]. injection E as E1 E2.
      apply N. replace p with q; [exact Hq|]. destruct p, q; cbn in *; congruence.
    + rewrite map_length. unfold F. rewrite Ec. clear. induction Pr as [|p Pr IH]; [reflexivity|]. cbn [map filter]. destruct (0 <? _)%N; cbn; rewrite IH; reflexivity.
    + intros i j. rewrite in_map_iff. rewrite (linked_lk A ns t DI DJ). unfold lnk, nz. split.
      * intros [[i' j'] [E Hp]]. cbn in E. injection E as -> <-. unfold F, Pr in Hp. apply filter_In in Hp. destruct Hp as [Hp V]. apply in_prod_iff in Hp. destruct Hp as [Hi Hj].
        unfold I in Hi. unfold Z, span in Hj. apply in_seq in Hi, Hj. cbn [fst snd] in V. apply N.ltb_lt in V.
        split; [|lia]. split; [lia|]. split; [lia|]. replace (S j' - 1) with j' by lia. apply negb_true_iff, N.eqb_neq. lia.
      * intros [[B1 [B2 B3]] [B4 B5]]. exists (i, j - 1). cbn [fst snd]. split; [f_equal; lia|]. unfold F, Pr, I, Z, span. apply filter_In. split; [apply in_prod_iff; split; apply in_seq; lia|].
        cbn [fst snd]. apply negb_true_iff, N.eqb_neq in B3. apply N.ltb_lt. lia.
    + rewrite fold_add_acc, N.add_0_l, Ec. unfold F. clear. induction Pr as [|p Pr IH]; [reflexivity|]. cbn [map filter fold_right]. rewrite IH.
      destruct (N.ltb_spec 0 (wc A (fst p - 1) (snd p))) as [B|B].
      * cbn [map filter fold_right fst snd]. replace (S (snd p) - 1) with (snd p) by lia. reflexivity.
      * replace (wc A (fst p - 1) (snd p)) with 0%N by lia. rewrite N.add_0_l. reflexivity.
Qed.
Lemma spur_spec : forall j, j < TL -> (spur A j = false <-> trg_linked A (S j)).
Proof.
  intros j Hj. unfold spur. destruct (Nat.ltb_spec j (wJ A)); [|lia]. rewrite negb_false_iff, existsb_exists. split.
  - intros [i [Hi L]]. apply in_seq in Hi. exists (i + 1). replace (S j) with (j + 1) by lia. apply (lk_linked A ns t DI DJ); [lia|lia|exact L].
  - intros [i L]. apply (linked_lk A ns t DI DJ) in L. exists (i - 1). replace (S j - 1) with j in L by lia. split; [apply in_seq; lia|apply L].
Qed.
Lemma lenNonSpur_words : forall x y, inr_cell t x y -> linked_words A (TL - x) (S y) (lenNonSpur A t x y).
Proof.
  intros x y [Hy Hx]. exists (map S (filter (fun j => negb (spur A j)) (span t x y))). split; [|split].
  - apply FinFun.Injective_map_NoDup; [intros a b E; congruence|]. apply NoDup_filter, seq_NoDup.
  - rewrite map_length. reflexivity.
  - intros j. rewrite in_map_iff. split.
    + intros [k [<- Hk]]. apply filter_In in Hk. destruct Hk as [Hk Sp]. apply in_seq in Hk. apply negb_true_iff in Sp. apply spur_spec in Sp; [|lia]. split; [lia|exact Sp].
    + intros [Hj L]. exists (j - 1). split; [lia|]. apply filter_In. split; [apply in_seq; lia|]. apply negb_true_iff. apply spur_spec; [lia|]. replace (S (j - 1)) with j by lia. exact L.
Qed.
Lemma linked_words_unique : forall j1 j2 n m, linked_words A j1 j2 n -> linked_words A j1 j2 m -> n = m.
Proof.
  intros j1 j2 n m [L [H1 [<- H2]]] [M [H3 [<- H4]]]. apply Nat.le_antisymm; apply NoDup_incl_length; auto; intros j Hj; [apply H4, H2|apply H2, H4]; exact Hj.
Qed.
Definition fits (i1 i2 j1 j2 : nat) : Prop :=
  (e_mono P = true -> monotone_at A i1 i2 j1 j2) /\ (e_srclen P = true -> S i2 - i1 <= e_max P) /\
  (e_spur P = true -> S j2 - j1 <= e_max P) /\ (e_spur P = false -> exists n, linked_words A j1 j2 n /\ n <= e_max P).
Lemma cell_sound : forall x y a, inr_cell t x y -> In a (fill_table A ns t P x y) -> c_ok a = true ->
  exists i1 i2, (forall k, tst (c_cov a) k = true <-> i1 <= k <= i2) /\ consistent A i1 i2 (TL - x) (S y) /\ fits i1 i2 (TL - x) (S y) /\
   pp_s (mk_pair A ns t x y (c_cov a)) = words (tl ns) i1 i2 /\ pp_t (mk_pair A ns t x y (c_cov a)) = words t (TL - x) (S y) /\
   links_inside A i1 i2 (TL - x) (S y) (pp_sum (mk_pair A ns t x y (c_cov a))) (pp_num (mk_pair A ns t x y (c_cov a))).
Proof.
  intros x y a Hr Ha Ok. destruct (table_CI A ns t P DI DJ (S (y - (TL - x - 1))) x y a ltac:(lia) Hr Ha) as [[C1 [C2 [C3 C4]]] [V Lm]]. specialize (V Ok).
  destruct (valid_sound _ _ _ V) as [i1 [i2 [H1 [H2 [T [M O]]]]]]. exists i1, i2. rewrite (outside_spec A ns t P DI DJ) in O.
  pose proof (mk_pair_spec x y (c_cov a) i1 i2 Hr H1 H2 C1 T) as [E1 [E2 E3]]. pose proof Hr as [Hy Hx].
  split; [intros k; split; intros Q; [apply T; [apply C3 in Q; lia|exact Q]|apply T; [lia|exact Q]]|].
  split; [|split; [|auto]].
  - split; [lia|]. split; [lia|]. split; [lia|]. split; [lia|]. split.
    + destruct C4 as [i [j [Hi [Hj L]]]]; [exists i1; apply T; lia|]. exists (i + 1), (j + 1). split; [apply (lk_linked A ns t DI DJ); [exact Hi|lia|exact L]|].
      split; [|lia]. apply T; [lia|]. apply (C2 i j); auto.
    + intros i j L. apply (linked_lk A ns t DI DJ) in L. destruct L as [Li [Lj L]]. split; intros B.
      * destruct (Nat.le_gt_cases (TL - x - 1) (j - 1)) as [G1|G1]; [destruct (Nat.le_gt_cases (j - 1) y) as [G2|G2]; [lia|]|];
        (exfalso; destruct (O (i - 1) (j - 1)) as [O1 _]; [lia|lia|exact L|lia|]; replace (i - 1 + 1) with i in O1 by lia; apply T in B; [congruence|lia]).
      * apply T; [lia|]. replace i with (i - 1 + 1) by lia. apply (C2 (i - 1) (j - 1)); [lia|lia|exact L].
  - split; [|split; [|split]].
    + intros Mo i j L. apply (linked_lk A ns t DI DJ) in L. destruct L as [Li [Lj L]].
      assert (Q : i < i1 \/ i2 < i -> ~ (TL - x - 1 <= j - 1 <= y)).
      { intros B G. assert (tst (c_cov a) (i - 1 + 1) = true) by (apply (C2 (i - 1) (j - 1)); [lia|lia|exact L]). replace (i - 1 + 1) with i in H by lia. apply T in H; lia. }
      split; intros B; (destruct (O (i - 1) (j - 1)) as [_ O1]; [lia|lia|exact L|apply Q; lia|]); destruct (O1 Mo) as [O2 O3]; specialize (Q ltac:(lia)); lia.
    + intros Sl. unfold maxSrc in M. rewrite Sl in M. exact M.
    + intros Sp. unfold limit in Lm. rewrite Sp in Lm. apply Nat.leb_le in Lm. unfold lenInCell in Lm. lia.
    + intros Sp. unfold limit in Lm. rewrite Sp in Lm. apply Nat.leb_le in Lm. eexists. split; [apply lenNonSpur_words; exact Hr|exact Lm].
Qed.
Lemma cells_in : forall x y, In (x, y) (cells_in_order t) <-> inr_cell t x y.
Proof.
  intros x y. unfold cells_in_order, inr_cell. rewrite in_flat_map. split.
  - intros [y' [Hy H]]. apply in_map_iff in H. destruct H as [x' [E Hx]]. injection E as -> ->. apply in_seq in Hy, Hx. lia.
  - intros H. exists y. split; [apply in_seq; lia|]. apply in_map_iff. exists x. split; [reflexivity|apply in_seq; lia].
Qed.
Lemma vec_in : forall p, In p (createVector A ns t (fill_table A ns t P)) <-> exists x y a, inr_cell t x y /\ In a (fill_table A ns t P x y) /\ c_ok a = true /\ p = mk_pair A ns t x y (c_cov a).
Proof.
  intros p. unfold createVector. rewrite in_flat_map. split.
  - intros [[x y] [H1 H2]]. cbn in H2. apply in_map_iff in H2. destruct H2 as [a [<- H2]]. apply filter_In in H2. exists x, y, a. split; [apply cells_in; exact H1|]. tauto.
  - intros [x [y [a [H1 [H2 [H3 ->]]]]]]. exists (x, y). split; [apply cells_in; exact H1|]. cbn. apply in_map_iff. exists a. split; [reflexivity|]. apply filter_In. auto.
Qed.
(** completeness *)
Section Compl.
Variables i1 i2 j1 j2 : nat.
Hypothesis CO : consistent A i1 i2 j1 j2.
Hypothesis L1 : src_linked A i1.
Hypothesis L2 : src_linked A i2.
Definition CH (j k : nat) : Prop := 1 <= k < NL /\
  (lk (k - 1) j = true \/ (zfert A k = true /\
    ((exists a b, 1 <= a < k /\ k < b < NL /\ lk (a - 1) j = true /\ lk (b - 1) j = true) \/
     (exists a, 1 <= a < k /\ k < i2 /\ lk (a - 1) j = true /\ forall k', a < k' <= k -> zfert A k' = true)))).
Lemma linked_zf : forall i j, linked A i j -> zfert A i = false.
Proof. intros i j L. apply (linked_lk A ns t DI DJ) in L. apply (linked_not_zfert A ns t DI DJ i (j - 1)); [lia|lia|apply L]. Qed.
Lemma ch_word : forall x y, j1 - 1 <= y <= j2 - 1 -> exists a, In a (ext_cell A ns t P x y) /\ length (c_cov a) = NL /\ forall k, tst (c_cov a) k = true <-> CH y k.
Proof.
  intros x y Hy. destruct CO as [B1 [B2 [B3 [B4 [_ B6]]]]]. rewrite DI in B2. rewrite DJ in B4.
  assert (Yt : y < TL) by lia. destruct (ext_cell_spec A ns t P DI DJ x y Yt) as [l [r [cb [le [ri [X [[Bl Bt] [E [_ [Ri Rx]]]]]]]]]]. rewrite E.
  assert (In_ : forall i, i < NL - 1 -> lk i y = true -> i1 <= i + 1 <= i2).
  { intros i Hi L. apply (B6 (i + 1) (y + 1)); [apply (lk_linked A ns t DI DJ); auto|lia]. }
  destruct L2 as [jz Lz]. apply linked_zf in Lz.
  destruct X as [[-> [-> X]]|[X1 [X2 [X3 [X4 X5]]]]].
  - eexists. split; [left; reflexivity|]. cbn [c_cov]. split; [exact Bl|]. intros k. rewrite Bt. unfold CH. split; intros [H1 H2]; (split; [exact H1|]).
    + destruct H2 as [H2|H2]; [left; exact H2|lia].
    + destruct H2 as [H2|[_ [[a [b [H2 [_ [H3 _]]]]]|[a [H2 [_ [H3 _]]]]]]]; [left; exact H2| |]; rewrite X in H3 by lia; discriminate.
  - assert (Hr : r <= i2) by (specialize (In_ (r - 1) ltac:(lia) X4); lia).
    assert (Alt : forall k a, 1 <= a < k -> k < NL -> lk (a - 1) y = true -> (forall k', a < k' <= k -> zfert A k' = true) -> a <= r /\ (a < r -> k < r)).
    { intros k a Ha Hk La Zk. specialize (X5 (a - 1) ltac:(lia) La). split; [lia|]. intros Lt. destruct (Nat.lt_ge_cases k r) as [G|G]; [exact G|].
      exfalso. specialize (Zk r ltac:(lia)). rewrite (linked_not_zfert A ns t DI DJ r y) in Zk; [discriminate|lia|lia|exact X4]. }
    destruct (Nat.eq_dec r i2) as [Er|Nr].
    + eexists. split; [left; reflexivity|]. cbn [c_cov]. split; [exact Bl|]. intros k. rewrite Bt. unfold CH. split; intros [H1 H2]; (split; [exact H1|]).
      * destruct H2 as [H2|[H2 H3]]; [left; exact H2|right]. split; [exact H2|]. left. exists l, r. repeat split; auto; lia.
      * destruct H2 as [H2|[Z H2]]; [left; exact H2|right]. split; [exact Z|]. destruct H2 as [[a [b [Ha [Hb [La Lb]]]]]|[a [Ha [Hb [La Zk]]]]].
        -- pose proof (X5 (a - 1) ltac:(lia) La). pose proof (X5 (b - 1) ltac:(lia) Lb). lia.
        -- pose proof (X5 (a - 1) ltac:(lia) La). lia.
    + destruct (zfert A (r + 1)) eqn:Zr.
      * destruct (Rx ltac:(lia) ltac:(lia) eq_refl) as [a0 Ha0]. destruct (Ri a0 Ha0) as [_ [_ [La [i [Hi [Zi [Ze Ti]]]]]]].
        assert (Hi2 : i <= i2) by (destruct (Nat.le_gt_cases i i2) as [G|G]; [exact G|]; exfalso; specialize (Zi i2 ltac:(lia)); congruence).
        exists a0. split; [right; apply in_or_app; right; exact Ha0|]. split; [exact La|]. intros k. rewrite Ti, Bt. unfold CH. split.
        -- intros [[H1 [H2|[H2 H3]]]|H].
           ++ split; [exact H1|left; exact H2].
           ++ split; [exact H1|right]. split; [exact H2|]. left. exists l, r. repeat split; auto; lia.
           ++ split; [lia|right]. split; [apply Zi; exact H|]. right. exists r. split; [lia|]. split; [lia|]. split; [exact X4|]. intros k' Hk'. apply Zi. lia.
        -- intros [H1 [H2|[Z H2]]]; [left; auto|]. destruct H2 as [[a [b [Ha [Hb [La' Lb]]]]]|[a [Ha [Hb [La' Zk]]]]].
           ++ left. split; [exact H1|right]. split; [exact Z|]. pose proof (X5 (a - 1) ltac:(lia) La'). pose proof (X5 (b - 1) ltac:(lia) Lb). lia.
           ++ destruct (Alt k a ltac:(lia) ltac:(lia) La' Zk) as [G1 G2]. destruct (Nat.eq_dec a r) as [->|Ne].
              ** right. split; [lia|]. destruct (Nat.lt_ge_cases k i) as [G|G]; [exact G|]. exfalso. destruct Ze as [->|Ze]; [lia|]. rewrite Zk in Ze by lia. discriminate.
              ** left. split; [exact H1|right]. split; [exact Z|]. pose proof (X5 (a - 1) ltac:(lia) La'). lia.
      * eexists. split; [left; reflexivity|]. cbn [c_cov]. split; [exact Bl|]. intros k. rewrite Bt. unfold CH. split; intros [H1 H2]; (split; [exact H1|]).
        -- destruct H2 as [H2|[H2 H3]]; [left; exact H2|right]. split; [exact H2|]. left. exists l, r. repeat split; auto; lia.
        -- destruct H2 as [H2|[Z H2]]; [left; exact H2|right]. split; [exact Z|]. destruct H2 as [[a [b [Ha [Hb [La Lb]]]]]|[a [Ha [Hb [La Zk]]]]].
           ++ pose proof (X5 (a - 1) ltac:(lia) La). pose proof (X5 (b - 1) ltac:(lia) Lb). lia.
           ++ destruct (Alt k a ltac:(lia) ltac:(lia) La Zk) as [G1 G2]. pose proof (X5 (a - 1) ltac:(lia) La). destruct (Nat.eq_dec a r) as [->|Ne]; [|lia].
              exfalso. rewrite Zk in Zr by lia. discriminate.
Qed.
Lemma limit_mono : forall x y x' y', x' < TL -> x < TL -> y' < TL -> y < TL -> TL - x - 1 <= TL - x' - 1 -> y' <= y -> TL - x' - 1 <= y' -> limit A t P x y = true -> limit A t P x' y' = true.
Proof.
  intros x y x' y' H1 H2 H3 H4 H5 H6 H7. unfold limit. rewrite !Nat.leb_le. destruct (e_spur P); [unfold lenInCell; lia|]. intros H. eapply Nat.le_trans; [|exact H].
  unfold lenNonSpur. apply NoDup_incl_length; [apply NoDup_filter, seq_NoDup|]. intros j Hj. apply filter_In in Hj. destruct Hj as [Hj N]. apply filter_In. split; [|exact N].
  unfold span in *. apply in_seq in Hj. apply in_seq. lia.
Qed.
Hypothesis LIM : limit A t P (TL - j1) (j2 - 1) = true.
Lemma ch_span : forall n s y, y - s < n -> j1 - 1 <= s -> s <= y -> y <= j2 - 1 ->
  exists a, In a (fill_table A ns t P (TL - s - 1) y) /\ length (c_cov a) = NL /\ forall k, tst (c_cov a) k = true <-> exists j, s <= j <= y /\ CH j k.
Proof.
  destruct CO as [B1 [B2 [B3 [B4 [_ B6]]]]]. rewrite DI in B2. rewrite DJ in B4.
  induction n as [|n IH]; intros s y Hn H1 H2 H3; [lia|].
  rewrite (proj1 (table_eqn A ns t P DI DJ)) by (unfold inr_cell; lia). unfold eqn.
  rewrite (limit_mono (TL - j1) (j2 - 1)); try lia; [|exact LIM]. destruct (Nat.eqb_spec (TL - s - 1) (TL - y - 1)) as [E|E].
  - assert (s = y) by lia. subst s. destruct (ch_word (TL - y - 1) y ltac:(lia)) as [a [Ha [La Ta]]]. exists a. split; [exact Ha|]. split; [exact La|].
    intros k. rewrite Ta. split; [intros H; exists y; split; [lia|exact H]|]. intros [j [Hj H]]. replace y with j by lia. exact H.
  - destruct (IH s (y - 1)) as [b [Hb [Lb Tb]]]; try lia. destruct (IH y y) as [d [Hd [Ld Td]]]; try lia.
    destruct (inner_cell_has A ns t P DI DJ (fill_table A ns t P) (TL - s - 1) y (y - 1) b d) as [a [Ha Ea]]; [lia|exact Hb|replace (TL - 2 - (y - 1)) with (TL - y - 1) by lia; exact Hd|].
    exists a. split; [exact Ha|]. rewrite Ea. split; [rewrite corr_len; congruence|]. intros k. rewrite corr_tst by congruence. rewrite orb_true_iff, Tb, Td. split.
    + intros [[j [Hj H]]|[j [Hj H]]]; exists j; (split; [lia|exact H]).
    + intros [j [Hj H]]. destruct (Nat.eq_dec j y) as [->|N]; [right; exists y; split; [lia|exact H]|left; exists j; split; [lia|exact H]].
Qed.
Lemma last_linked : forall k, i1 <= k -> zfert A k = true -> exists a, i1 <= a < k /\ zfert A a = false /\ forall k', a < k' <= k -> zfert A k' = true.
Proof.
  destruct L1 as [jz Lz]. apply linked_zf in Lz. induction k as [|k IH]; intros H Z; [assert (i1 = 0) by lia; congruence|].
  destruct (Nat.eq_dec i1 (S k)) as [E|N]; [congruence|]. destruct (zfert A k) eqn:Zk.
  - destruct IH as [a [H1 [H2 H3]]]; [lia|reflexivity|]. exists a. split; [lia|]. split; [exact H2|]. intros k' Hk'. destruct (Nat.eq_dec k' (S k)) as [->|N']; [exact Z|apply H3; lia].
  - exists k. split; [lia|]. split; [exact Zk|]. intros k' Hk'. replace k' with (S k) by lia. exact Z.
Qed.
Lemma ch_top : forall k, (exists j, j1 - 1 <= j <= j2 - 1 /\ CH j k) <-> i1 <= k <= i2.
Proof.
  intros k. destruct CO as [B1 [B2 [B3 [B4 [_ B6]]]]]. rewrite DI in B2. rewrite DJ in B4.
  assert (In_ : forall i j, 1 <= i < NL -> j1 - 1 <= j <= j2 - 1 -> lk (i - 1) j = true -> i1 <= i <= i2).
  { intros i j Hi Hj L. apply (B6 i (j + 1)); [|lia]. replace i with (i - 1 + 1) by lia. apply (lk_linked A ns t DI DJ); [lia|lia|exact L]. }
  split.
  - intros [j [Hj [Hk [L|[Z [[a [b [Ha [Hb [La Lb]]]]]|[a [Ha [Hb [La Zk]]]]]]]]]].
    + apply (In_ k j); auto.
    + pose proof (In_ a j ltac:(lia) Hj La). pose proof (In_ b j ltac:(lia) Hj Lb). lia.
    + pose proof (In_ a j ltac:(lia) Hj La). lia.
  - intros Hk. destruct L2 as [jz Lz]. apply linked_zf in Lz. destruct (zfert A k) eqn:Z.
    + destruct (last_linked k ltac:(lia) Z) as [a [Ha [Za Zk]]]. destruct (zfert_false A ns t DI DJ a ltac:(lia) Za) as [j [Hj La]].
      assert (Hj2 : j1 <= j + 1 <= j2). { apply (B6 a (j + 1)); [|lia]. replace a with (a - 1 + 1) by lia. apply (lk_linked A ns t DI DJ); [lia|lia|exact La]. }
      exists j. split; [lia|]. split; [lia|]. right. split; [exact Z|]. right. exists a. split; [lia|]. split; [destruct (Nat.eq_dec k i2) as [->|]; [congruence|lia]|]. auto.
    + destruct (zfert_false A ns t DI DJ k ltac:(lia) Z) as [j [Hj La]].
      assert (Hj2 : j1 <= j + 1 <= j2). { apply (B6 k (j + 1)); [|lia]. replace k with (k - 1 + 1) by lia. apply (lk_linked A ns t DI DJ); [lia|lia|exact La]. }
      exists j. split; [lia|]. split; [lia|]. left. exact La.
Qed.
Hypothesis MAXS : S i2 - i1 <= maxSrc P.
Hypothesis MONO : e_mono P = true -> monotone_at A i1 i2 j1 j2.
Hypothesis FULL : j1 = 1 -> j2 = TL -> i1 = 1 /\ i2 = NL - 1.
Lemma cell_complete : exists a, In a (fill_table A ns t P (TL - j1) (j2 - 1)) /\ c_ok a = true /\ length (c_cov a) = NL /\ forall k, tst (c_cov a) k = true <-> i1 <= k <= i2.
Proof.
  destruct CO as [B1 [B2 [B3 [B4 [B5 B6]]]]]. rewrite DI in B2. rewrite DJ in B4.
  destruct (ch_span (S (j2 - j1)) (j1 - 1) (j2 - 1)) as [a [Ha [La Ta]]]; try lia. replace (TL - (j1 - 1) - 1) with (TL - j1) in Ha by lia.
  assert (T : forall k, tst (c_cov a) k = true <-> i1 <= k <= i2) by (intros k; rewrite Ta; apply ch_top).
  exists a. split; [exact Ha|]. split; [|split; [exact La|exact T]].
  assert (V : validCoverageForCell A ns t P (c_cov a) (TL - j1) (j2 - 1) = true).
  { apply valid_complete with i1 i2; [lia|lia|intros k _; apply T|exact MAXS| |intros E1 E2; apply FULL; lia].
    apply (outside_spec A ns t P DI DJ). intros i j Hi Hj L Out. pose proof (lk_linked A ns t DI DJ i j Hi Hj L) as LK. pose proof (B6 _ _ LK) as Q.
    split; [destruct (tst (c_cov a) (i + 1)) eqn:Q2; [|reflexivity]; apply T in Q2; lia|]. intros Mo. destruct (MONO Mo _ _ LK) as [M1 M2]. lia. }
  rewrite (proj1 (table_eqn A ns t P DI DJ)) in Ha by (unfold inr_cell; lia). unfold eqn in Ha. rewrite LIM in Ha. destruct (TL - j1 =? TL - (j2 - 1) - 1).
  - destruct (ext_cell_spec A ns t P DI DJ (TL - j1) (j2 - 1) ltac:(lia)) as [l [r [cb [le [ri [X [_ [E [Le [Ri _]]]]]]]]]]. rewrite E in Ha. destruct Ha as [<-|Ha].
    + cbn [c_ok c_cov] in *. rewrite V. cbn [andb]. apply Nat.ltb_lt. unfold lenNonSpur.
      destruct B5 as [i [j [L [Hi Hj]]]]. assert (Hin : In (j - 1) (filter (fun j => negb (spur A j)) (span t (TL - j1) (j2 - 1)))).
      { apply filter_In. split; [apply in_seq; lia|]. apply negb_true_iff. apply spur_spec; [lia|]. exists i. replace (S (j - 1)) with j by lia. exact L. }
      destruct (filter _ _); [destruct Hin|cbn; lia].
    + apply in_app_or in Ha. destruct Ha as [Ha|Ha]; [destruct (Le a Ha) as [-> _]|destruct (Ri a Ha) as [-> _]]; exact V.
  - apply (inner_cell_in A ns t P DI DJ) in Ha. destruct Ha as [-> _]. exact V.
Qed.
End Compl.
End Ex.

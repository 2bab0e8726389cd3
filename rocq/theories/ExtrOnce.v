(** No pair of spans is extracted twice. *)
From Coq Require Import NArith Arith List Bool Lia.
From Verif Require Import AligSpec AligModel ExtrSpec ExtrModel ExtrBase ExtrCell ExtrProofs.
Import ListNotations.
Section Once.
Context {W : Type}.
Variables (A : wam) (ns t : list W) (P : epars).
Hypothesis DI : wI A = nslen ns - 1.
Hypothesis DJ : wJ A = tlen t.
Hypothesis NE : 2 <= nslen ns.
Notation TL := (tlen t).
Notation NL := (nslen ns).
Notation lk := (lnk A).
Lemma nodup3 : forall (b : cov) le ri, NoDup le -> NoDup ri -> ~ In b le -> ~ In b ri -> (forall c, In c le -> ~ In c ri) -> NoDup (b :: le ++ ri).
Proof.
  intros b le ri Hl Hr N1 N2 D. constructor; [intros Q; apply in_app_or in Q; tauto|]. clear N1 N2.
  induction Hl as [|c le Nc Hl IH]; [exact Hr|]. cbn. constructor; [intros Q; apply in_app_or in Q; destruct Q as [Q|Q]; [auto|apply (D c); [left; reflexivity|exact Q]]|].
  apply IH. intros; apply D; right; auto.
Qed.
Lemma ext_nodup : forall x y, y < TL -> NoDup (map c_cov (ext_cell A ns t P x y)).
Proof.
  intros x y Hy. unfold ext_cell. destruct (ext_links_spec A ns t DI DJ y) as [c0 [l [r [E [L0 [T0 X]]]]]]. rewrite E.
  destruct (ext_fill_spec A ns t DI DJ l r c0 L0) as [L1 T1]. set (cb := ext_fill A ns l r c0) in *.
  cbn [map c_cov]. rewrite map_app.
  assert (B : forall k, tst cb k = true -> l <= k <= r).
  { intros k H. apply T1 in H. destruct H as [H|H]; [|lia]. apply T0 in H. destruct H as [Hk H]. destruct X as [[_ [_ X]]|[_ [_ [_ [_ X]]]]]; [rewrite X in H by lia; discriminate|]. specialize (X (k - 1) ltac:(lia) H). lia. }
  set (le := if (0 <? l) && negb (l =? NL) then _ else []). set (ri := if (r <? NL - 1) && negb (r =? 0) then _ else []).
  assert (LE : le = [] \/ exists a, le = [a] /\ (exists k, k < l /\ tst (c_cov a) k = true) /\ forall k, tst (c_cov a) k = true -> k <= r).
  { unfold le. destruct ((0 <? l) && negb (l =? NL)) eqn:Q; [|left; reflexivity]. apply andb_true_iff in Q. destruct Q as [Q1 Q2]. apply Nat.ltb_lt in Q1. apply negb_true_iff, Nat.eqb_neq in Q2.
    destruct X as [[X _]|[X1 [X2 [X3 [X4 X5]]]]]; [lia|].
    destruct (left_loop_spec A ns t DI DJ (l - 1) cb) as [i [c' [E' [H1 [H2 [H3 [H4 H5]]]]]]]; [lia|]. rewrite E'. destruct (zfert A (i + 1)) eqn:Z; [|left; reflexivity].
    right. eexists. split; [reflexivity|]. cbn [c_cov]. split.
    - exists (i + 1). destruct (Nat.eq_dec (i + 1) l) as [El|Nl]; [exfalso; rewrite El in Z; rewrite (linked_not_zfert A ns t DI DJ l y) in Z; [discriminate|lia|lia|exact X3]|]. split; [lia|]. apply H3. right. lia.
    - intros k Hk. apply H3 in Hk. destruct Hk as [Hk|Hk]; [apply B in Hk|]; lia. }
  assert (RI : ri = [] \/ exists a, ri = [a] /\ (exists k, r < k /\ tst (c_cov a) k = true) /\ forall k, tst (c_cov a) k = true -> l <= k).
  { unfold ri. destruct ((r <? NL - 1) && negb (r =? 0)) eqn:Q; [|left; reflexivity]. apply andb_true_iff in Q. destruct Q as [Q1 Q2]. apply Nat.ltb_lt in Q1. apply negb_true_iff, Nat.eqb_neq in Q2.
    destruct X as [[_ [X _]]|[X1 [X2 [X3 [X4 X5]]]]]; [lia|].
    destruct (right_loop_spec A ns t DI DJ (NL - (r + 1)) (r + 1) cb) as [i [c' [E' [H1 [H2 [H3 [H4 H5]]]]]]]; [lia|]. rewrite E'. destruct (zfert A (i - 1)) eqn:Z; [|left; reflexivity].
    right. eexists. split; [reflexivity|]. cbn [c_cov]. split.
    - exists (i - 1). destruct (Nat.eq_dec (i - 1) r) as [El|Nl]; [exfalso; rewrite El in Z; rewrite (linked_not_zfert A ns t DI DJ r y) in Z; [discriminate|lia|lia|exact X4]|]. split; [lia|]. apply H3. right. lia.
    - intros k Hk. apply H3 in Hk. destruct Hk as [Hk|Hk]; [apply B in Hk|]; lia. }
  apply nodup3.
  - destruct LE as [->|[a [-> _]]]; cbn; repeat constructor. intros [].
  - destruct RI as [->|[a [-> _]]]; cbn; repeat constructor. intros [].
  - destruct LE as [->|[a [-> [[k [K1 K2]] _]]]]; [intros []|]. cbn. intros [Q|[]]. rewrite Q in K2. apply B in K2. lia.
  - destruct RI as [->|[a [-> [[k [K1 K2]] _]]]]; [intros []|]. cbn. intros [Q|[]]. rewrite Q in K2. apply B in K2. lia.
  - destruct LE as [->|[a [-> [[k [K1 K2]] _]]]]; [intros c []|]. destruct RI as [->|[b [-> [_ R2]]]]; [intros c _ []|]. cbn. intros c [<-|[]] [Q|[]]. rewrite <- Q in K2. apply R2 in K2. lia.
Qed.
Lemma inner_nodup : forall T x y, NoDup (map c_cov (inner_cell A ns t P T x y)).
Proof.
  intros T x y. unfold inner_cell.
  assert (F : forall (X : Type) (f : list ca -> X -> list ca), (forall l v, NoDup (map c_cov l) -> NoDup (map c_cov (f l v))) -> forall xs l, NoDup (map c_cov l) -> NoDup (map c_cov (fold_left f xs l))).
  { intros X f Hf xs; induction xs as [|v xs IH]; intros l H; [exact H|]. cbn. apply IH, Hf, H. }
  apply F; [|constructor]. intros l z H. apply F; [|exact H]. intros l' b H'. apply F; [|exact H']. intros l2 d H2. unfold add_cell. destruct (exist_cell l2 _) eqn:Ex; [exact H2|].
  rewrite map_app. cbn [map c_cov]. apply NoDup_rev in H2. rewrite <- rev_involutive. apply NoDup_rev. rewrite rev_app_distr. cbn [rev app]. constructor; [|exact H2].
  intros Q. apply in_rev in Q. apply in_map_iff in Q. destruct Q as [a [Ea Ha]].
  assert (exist_cell l2 (corr (c_cov b) (c_cov d)) = true); [|congruence]. apply exist_cell_in; auto. exists a. auto.
Qed.
Lemma table_nodup : forall x y, inr_cell t x y -> NoDup (map c_cov (fill_table A ns t P x y)).
Proof.
  intros x y Hr. rewrite (proj1 (table_eqn A ns t P DI DJ) x y Hr). unfold eqn. destruct (limit A t P x y); [|constructor]. destruct (x =? TL - y - 1); [apply ext_nodup, Hr|apply inner_nodup].
Qed.
Definition quad := (nat * nat * nat * nat)%type.
Definition sound (q : quad) (p : ppair W) : Prop :=
  let '(i1, i2, j1, j2) := q in consistent A i1 i2 j1 j2 /\ fits A P i1 i2 j1 j2 /\ pp_s p = words (tl ns) i1 i2 /\ pp_t p = words t j1 j2 /\ links_inside A i1 i2 j1 j2 (pp_sum p) (pp_num p).
Definition own (x y : nat) (q : quad) : Prop := snd (fst q) = TL - x /\ snd q = S y.
Lemma cell_list : forall x y l, inr_cell t x y -> (forall a, In a l -> In a (fill_table A ns t P x y) /\ c_ok a = true) -> NoDup (map c_cov l) ->
  exists L, NoDup L /\ Forall2 sound L (map (fun a => mk_pair A ns t x y (c_cov a)) l) /\ Forall (own x y) L /\
    (forall q, In q L -> exists a, In a l /\ forall k, tst (c_cov a) k = true <-> fst (fst (fst q)) <= k <= snd (fst (fst q))) /\
    forall a, In a l -> exists q, In q L /\ own x y q /\ forall k, tst (c_cov a) k = true <-> fst (fst (fst q)) <= k <= snd (fst (fst q)).
Proof.
  intros x y l Hr. induction l as [|a l IH]; intros H N; [exists []; repeat split; try constructor; intros q []|].
  cbn [map] in N. apply NoDup_cons_iff in N. destruct N as [Na N]. destruct IH as [L [L1 [L2 [L3 [L4 L5]]]]]; [intros; apply H; right; auto|exact N|].
  destruct (H a ltac:(left; reflexivity)) as [Ha Ok]. destruct (cell_sound A ns t P DI DJ NE x y a Hr Ha Ok) as [i1 [i2 [T So]]].
  exists ((i1, i2, TL - x, S y) :: L). split; [|split; [|split; [|split]]].
  - constructor; [|exact L1]. intros Q. destruct (L4 _ Q) as [b [Hb Tb]]. cbn [fst snd] in Tb. apply Na. apply in_map_iff. exists b. split; [|exact Hb].
    destruct (H b ltac:(right; exact Hb)) as [Hb' _].
    destruct (table_CI A ns t P DI DJ (S (y - (TL - x - 1))) x y a ltac:(lia) Hr Ha) as [[Ca _] _].
    destruct (table_CI A ns t P DI DJ (S (y - (TL - x - 1))) x y b ltac:(lia) Hr Hb') as [[Cb _] _].
    apply cov_ext; [congruence|]. intros k. apply eq_true_iff_eq. rewrite T, Tb. tauto.
  - constructor; [|exact L2]. exact So.
  - constructor; [|exact L3]. split; reflexivity.
  - intros q [<-|Hq]; [exists a; split; [left; reflexivity|exact T]|]. destruct (L4 q Hq) as [b [Hb Tb]]. exists b. split; [right; exact Hb|exact Tb].
  - intros b [<-|Hb]; [exists (i1, i2, TL - x, S y); split; [left; reflexivity|split; [split; reflexivity|exact T]]|]. destruct (L5 b Hb) as [q [Hq [O Tq]]]. exists q. split; [right; exact Hq|auto].
Qed.
Lemma nodup_map_filter : forall (f : ca -> bool) l, NoDup (map c_cov l) -> NoDup (map c_cov (filter f l)).
Proof.
  intros f; induction l as [|a l IH]; intros H; [constructor|]. cbn in *. apply NoDup_cons_iff in H. destruct H as [N H]. destruct (f a); [|apply IH, H]. cbn. constructor; [|apply IH, H].
  intros Q. apply N. apply in_map_iff in Q. destruct Q as [b [E Hb]]. apply filter_In in Hb. apply in_map_iff. exists b. tauto.
Qed.
Lemma all_list : forall cs, NoDup cs -> (forall x y, In (x, y) cs -> inr_cell t x y) ->
  exists L, NoDup L /\ Forall2 sound L (flat_map (fun xy => map (fun a => mk_pair A ns t (fst xy) (snd xy) (c_cov a)) (filter c_ok (fill_table A ns t P (fst xy) (snd xy)))) cs) /\
    (forall q, In q L -> exists x y, In (x, y) cs /\ own x y q) /\
    forall x y a, In (x, y) cs -> In a (fill_table A ns t P x y) -> c_ok a = true -> exists q, In q L /\ own x y q /\ forall k, tst (c_cov a) k = true <-> fst (fst (fst q)) <= k <= snd (fst (fst q)).
Proof.
  induction cs as [|[x y] cs IH]; intros N H; [exists []; split; [constructor|split; [constructor|split; [intros q []|intros x y a []]]]|].
  apply NoDup_cons_iff in N. destruct N as [Nx N]. destruct IH as [L [L1 [L2 [L3 L4]]]]; [exact N|intros; apply H; right; auto|].
  assert (Hr : inr_cell t x y) by (apply H; left; reflexivity).
  destruct (cell_list x y (filter c_ok (fill_table A ns t P x y)) Hr) as [M [M1 [M2 [M3 [_ M5]]]]].
  { intros a Ha. apply filter_In in Ha. exact Ha. } { apply nodup_map_filter, table_nodup, Hr. }
  rewrite Forall_forall in M3.
  exists (M ++ L). split; [|split; [|split]].
  - clear M2 M5 L2 L4. revert M3. induction M1 as [|q M Nq M1 IHM]; intros M3; [exact L1|]. cbn. constructor; [|apply IHM; intros; apply M3; right; auto].
    intros Q. apply in_app_or in Q. destruct Q as [Q|Q]; [auto|]. destruct (L3 q Q) as [x' [y' [Hc O]]]. pose proof (M3 q ltac:(left; reflexivity)) as O'.
    apply Nx. pose proof (H x' y' ltac:(right; exact Hc)) as Hr'. unfold own, inr_cell in *. replace x with x' by lia. replace y with y' by lia. exact Hc.
  - cbn [flat_map fst snd]. apply Forall2_app; assumption.
  - intros q Hq. apply in_app_or in Hq. destruct Hq as [Hq|Hq]; [exists x, y; split; [left; reflexivity|apply M3; exact Hq]|]. destruct (L3 q Hq) as [x' [y' [Hc O]]]. exists x', y'. split; [right; exact Hc|exact O].
  - intros x' y' a [E|Hc] Ha Ok.
    + injection E as <- <-. destruct (M5 a) as [q [Hq R]]; [apply filter_In; auto|]. exists q. split; [apply in_or_app; left; exact Hq|exact R].
    + destruct (L4 x' y' a Hc Ha Ok) as [q [Hq R]]. exists q. split; [apply in_or_app; right; exact Hq|exact R].
Qed.
Lemma cells_nodup : NoDup (cells_in_order t).
Proof.
  unfold cells_in_order. assert (G : forall ys, NoDup ys -> NoDup (flat_map (fun y => map (fun x => (x, y)) (seq (TL - y - 1) (TL - (TL - y - 1)))) ys)).
  { induction ys as [|y ys IH]; intros N; [constructor|]. apply NoDup_cons_iff in N. destruct N as [Ny N]. cbn [flat_map].
    assert (D : forall xs (V : list (nat * nat)), NoDup xs -> NoDup V -> (forall x', ~ In (x', y) V) -> NoDup (map (fun x => (x, y)) xs ++ V)).
    { intros xs V Hx HV Dj. induction Hx as [|x xs Nx Hx IHx]; [exact HV|]. cbn. constructor; [|exact IHx]. intros Q. apply in_app_or in Q. destruct Q as [Q|Q]; [|apply (Dj x), Q].
      apply in_map_iff in Q. destruct Q as [x' [E Hx']]. congruence. }
    apply D; [apply seq_NoDup|apply IH, N|]. intros x' Q. apply in_flat_map in Q. destruct Q as [y' [Hy' Q]]. apply in_map_iff in Q. destruct Q as [x2 [E _]]. congruence. }
  apply G, seq_NoDup.
Qed.
Lemma extract_once : exists L, NoDup L /\ Forall2 sound L (createVector A ns t (fill_table A ns t P)).
Proof.
  destruct (all_list (cells_in_order t) cells_nodup) as [L [L1 [L2 _]]]; [intros x y; apply (cells_in A ns t DI DJ NE)|]. exists L. auto.
Qed.
Lemma extract_exact : exists L, NoDup L /\ Forall2 sound L (createVector A ns t (fill_table A ns t P)) /\
  forall x y a, In (x, y) (cells_in_order t) -> In a (fill_table A ns t P x y) -> c_ok a = true -> exists q, In q L /\ own x y q /\ forall k, tst (c_cov a) k = true <-> fst (fst (fst q)) <= k <= snd (fst (fst q)).
Proof.
  destruct (all_list (cells_in_order t) cells_nodup) as [L [L1 [L2 [_ L4]]]]; [intros x y; apply (cells_in A ns t DI DJ NE)|]. exists L. auto.
Qed.
End Once.

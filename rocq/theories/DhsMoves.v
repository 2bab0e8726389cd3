(** Proofs for DhsModel.v: the moves of an iteration. *)
From Coq Require Import Arith ZArith QArith List Bool Lia Lqa.
From Verif Require Import DhsSpec DhsModel DhsProofs.
Import ListNotations.
Local Open Scope nat_scope.
Lemma nth_map_seq (f : nat -> Q) n j : j < n -> nth j (map f (seq 0 n)) 0%Q = f j.
Proof. intro H. rewrite (nth_indep _ 0%Q (f 0)) by (rewrite map_length, seq_length; lia). rewrite map_nth, seq_nth by lia. auto. Qed.
Lemma nth_map_seq_v (f : nat -> point) n j : j < n -> nth j (map f (seq 0 n)) [] = f j.
Proof. intro H. rewrite (nth_indep _ [] (f 0)) by (rewrite map_length, seq_length; lia). rewrite map_nth, seq_nth by lia. auto. Qed.
Lemma cent_sum s vg j l : forall a, (fold_left (fun cent m => if m =? vg then cent else (cent + V s m j)%Q) l a == a + qsum (map (fun m => if m =? vg then 0%Q else nth j (nth m (sv s) []) 0%Q) l))%Q.
Proof.
  induction l as [|m l IH]; intro a; simpl; [lra|]. rewrite IH. destruct (m =? vg); unfold V; simpl; lra.
Qed.
Lemma centroid_spec n s vg j : length (sv s) = S n -> j < n -> (nth j (centroid n s vg) 0 == centre (sv s) vg j)%Q.
Proof. intros L H. unfold centroid. rewrite nth_map_seq by auto. unfold centre. rewrite L. replace (S n - 1) with n by lia. rewrite cent_sum. rewrite Qplus_0_l. lra. Qed.
Section G.
Variable g : point -> Q.
(** vertex [i] is replaced by [x] with its value *)
Definition replaced (s : simplex) (i : nat) (x : point) (s' : simplex) : Prop :=
  length (sv s') = length (sv s) /\ length (sf s') = length (sf s) /\
  nth i (sv s') [] = x /\ nth i (sf s') 0%Q = g x /\ forall j, j <> i -> nth j (sv s') [] = nth j (sv s) [] /\ nth j (sf s') 0%Q = nth j (sf s) 0%Q.
Lemma setVF_replaced s i x : i < length (sv s) -> i < length (sf s) -> replaced s i x (setVF s i x (g x)).
Proof.
  intros A B. unfold replaced, setVF. cbn [sv sf]. rewrite !set_nth_len. split; auto. split; auto. rewrite !nth_set by auto. rewrite Nat.eqb_refl. split; auto. split; auto.
  intros j Hj. rewrite !nth_set by auto. apply Nat.eqb_neq in Hj. rewrite Hj. auto.
Qed.
Lemma moves n s w b s' xs : length (sv s) = S n -> length (sf s) = S n -> first_max (sf s) w -> first_min (sf s) b -> (nth b (sf s) 0 < nth w (sf s) 0)%Q ->
  ev g (iteration n s) = (s', xs) ->
  exists h xr, second_max (sf s) w h /\ length xr = n /\ on_line (sv s) w 1 xr /\
  (((g xr < nth b (sf s) 0)%Q /\ exists xe, xs = [xr; xe] /\ length xe = n /\ on_line (sv s) w (2 # 1) xe /\ ((g xe < g xr)%Q /\ replaced s w xe s' \/ (g xr <= g xe)%Q /\ replaced s w xr s')) \/
   ((nth b (sf s) 0 <= g xr < nth h (sf s) 0)%Q /\ xs = [xr] /\ replaced s w xr s') \/
   ((nth h (sf s) 0 <= g xr)%Q /\ exists xc, length xc = n /\
      ((g xr < nth w (sf s) 0)%Q /\ on_line (sv s) w (1 # 2) xc \/ (nth w (sf s) 0 <= g xr)%Q /\ on_line (sv s) w (- (1 # 2)) xc) /\
      ((g xc < nth w (sf s) 0)%Q /\ xs = [xr; xc] /\ replaced s w xc s' \/
       (nth w (sf s) 0 <= g xc)%Q /\ xs = [xr; xc; nth w (sv s') []; nth h (sv s') []] /\ nth b (sv s') [] = nth b (sv s) [] /\
       (forall i, i <= n -> i <> b -> length (nth i (sv s') []) = n /\ halfway (nth b (sv s) []) (nth i (sv s) []) (nth i (sv s') [])) /\
       nth w (sf s') 0%Q = g (nth w (sv s') []) /\ nth h (sf s') 0%Q = g (nth h (sv s') []) /\ forall i, i <> w -> i <> h -> nth i (sf s') 0%Q = nth i (sf s) 0%Q))).
Proof.
  intros L1 L2 W B LT E. unfold iteration in E. cbv zeta in E.
  pose proof (find_vs_spec n s L2) as VS. pose proof (find_vg_spec n s L2) as VG.
  assert (Eb : find_vs n s = b) by (eapply first_min_unique; eauto). assert (Ew : find_vg n s = w).
  { destruct W as [W1 [W2 W3]], VG as [G1 [G2 G3]]. destruct (lt_eq_lt_dec (find_vg n s) w) as [[H|H]|H]; auto; exfalso.
    - specialize (W3 _ H). specialize (G2 _ W1). lra.
    - specialize (G3 _ H). specialize (W2 _ G1). lra. }
  rewrite Eb, Ew in E. assert (Hb : b <= n) by (destruct B; lia). assert (Hw : w <= n) by (destruct W; lia).
  pose proof (find_vh_spec n s b w Hb) as VH. cbv zeta in VH. set (h := find_vh n s b w) in *. destruct VH as [Hh [VH1 VH2]].
  assert (HS : second_max (sf s) w h).
  { split; [lia|]. unfold F in *. split; [destruct VH1 as [ -> |[VH1 _]]; auto|]. intros j Hj. apply VH2. lia. }
  assert (NW : h <> w) by (intro K; destruct HS as [_ [HS _]]; rewrite K in HS; lra). assert (NB : b <> w) by (intro K; rewrite K in LT; lra).
  assert (LE : (F s b <= F s h)%Q) by (apply (proj1 (proj2 B)); lia).
  set (vm := centroid n s w) in *. set (vr := reflect n vm (nth w (sv s) [])) in *.
  assert (LR : forall f : nat -> Q, length (map f (seq 0 n)) = n) by (intro f; now rewrite map_length, seq_length).
  assert (CT : forall j, j < n -> (nth j vm 0 == centre (sv s) w j)%Q) by (intros; now apply centroid_spec).
  assert (OR : on_line (sv s) w 1 vr).
  { intros j Hj. rewrite L1 in Hj. unfold vr, reflect. rewrite nth_map_seq by lia. rewrite CT by lia. lra. }
  assert (NR : forall j, j < n -> (nth j vr 0 == centre (sv s) w j + (centre (sv s) w j - nth j (nth w (sv s) []) 0))%Q).
  { intros j Hj. rewrite (OR j) by lia. lra. }
  exists h, vr. split; auto. split; [apply LR|]. split; auto.
  cbn [ev] in E. rewrite ev_bind in E. set (fr := g vr) in *.
  destruct (qlt fr (F s h)) eqn:E1; cbn [andb] in E.
  - apply qlt_true in E1. destruct (Qle_bool (F s b) fr) eqn:E2.
    + apply Qle_bool_iff in E2. right. left. fold fr. split; [split; auto|].
      assert (FB : F (setVF s w vr fr) b = F s b) by (rewrite F_set by lia; replace (b =? w) with false by (symmetry; apply Nat.eqb_neq; auto); auto).
      rewrite FB in E. destruct (qlt fr (F s b)) eqn:E3; [apply qlt_true in E3; lra|]. cbn [ev app] in E.
      assert (FH : F (setVF s w vr fr) h = F s h) by (rewrite F_set by lia; replace (h =? w) with false by (symmetry; apply Nat.eqb_neq; auto); auto).
      rewrite FH in E. destruct (Qle_bool (F s h) fr) eqn:E4; [apply Qle_bool_iff in E4; lra|]. cbn [ev] in E. injection E as <- <-. split; auto. apply setVF_replaced; lia.
    + apply qle_false in E2. left. split; auto. destruct (qlt fr (F s b)) eqn:E3; [|apply qlt_false in E3; lra]. cbn [ev app] in E.
      set (ve := expand n vm vr) in *. set (fe := g ve) in *.
      assert (FH : forall x y, F (setVF s w x y) h = F s h) by (intros x y; rewrite F_set by lia; replace (h =? w) with false by (symmetry; apply Nat.eqb_neq; auto); auto).
      assert (OE : on_line (sv s) w (2 # 1) ve).
      { intros j Hj. rewrite L1 in Hj. unfold ve, expand. rewrite nth_map_seq by lia. rewrite NR, CT by lia. lra. }
      exists ve. destruct (qlt fe fr) eqn:E4; rewrite FH in E; (destruct (Qle_bool (F s h) fr) eqn:E5; [apply Qle_bool_iff in E5; lra|]); cbn [ev app] in E; injection E as <- <-; (split; [reflexivity|]; split; [apply LR|]; split; auto).
      * apply qlt_true in E4. left. split; auto. apply setVF_replaced; lia.
      * apply qlt_false in E4. right. split; auto. apply setVF_replaced; lia.
  - apply qlt_false in E1. right. right. split; auto. destruct (qlt fr (F s b)) eqn:E3; [apply qlt_true in E3; lra|]. cbn [ev app] in E.
    destruct (Qle_bool (F s h) fr) eqn:E4; [|apply qle_false in E4; lra]. cbn [ev] in E.
    set (vc := if qlt fr (F s w) then contract_out n vm vr else contract_in n vm (nth w (sv s) [])) in *. exists vc.
    split; [unfold vc; destruct (qlt fr (F s w)); apply LR|]. split.
    { unfold vc. destruct (qlt fr (F s w)) eqn:E5.
      - apply qlt_true in E5. left. split; auto. intros j Hj. rewrite L1 in Hj. unfold contract_out. rewrite nth_map_seq by lia. rewrite NR, CT by lia. lra.
      - apply qlt_false in E5. right. split; auto. intros j Hj. rewrite L1 in Hj. unfold contract_in. rewrite nth_map_seq by lia. rewrite CT by lia. lra. }
    set (fc := g vc) in *. destruct (qlt fc (F s w)) eqn:E6; cbn [ev] in E; injection E as <- <-.
    + apply qlt_true in E6. left. split; auto. split; auto. apply setVF_replaced; lia.
    + apply qlt_false in E6. right. cbn [sv sf]. split; auto. split; auto.
      assert (SH : forall i, i <= n -> nth i (sv (shrink n s b)) [] = if i =? b then nth i (sv s) [] else map (fun j => (V s b j + (V s i j - V s b j) / (2 # 1))%Q) (seq 0 n)).
      { intros i Hi. unfold shrink. cbn [sv]. rewrite nth_map_seq_v by lia. auto. }
      split; [rewrite SH by lia; now rewrite Nat.eqb_refl|]. split.
      { intros i Hi Ni. rewrite SH by lia. apply Nat.eqb_neq in Ni. rewrite Ni. split; [apply LR|]. intros j Hj. rewrite map_length, seq_length in Hj. rewrite nth_map_seq by auto. unfold V. field. }
      change (sf (shrink n s b)) with (sf s). split; [|split].
      * rewrite !nth_set by (rewrite ?set_nth_len; lia). replace (w =? h) with false by (symmetry; apply Nat.eqb_neq; auto). now rewrite Nat.eqb_refl.
      * rewrite !nth_set by (rewrite ?set_nth_len; lia). now rewrite Nat.eqb_refl.
      * intros i I1 I2. rewrite !nth_set by (rewrite ?set_nth_len; lia). apply Nat.eqb_neq in I1, I2. now rewrite I1, I2.
Qed.
End G.
(** ** variables of the command line *)
Lemma xToVarVec_ok vars : forall x, length x = getNumDims vars -> exists l, xToVarVec vars x = Some l /\ length l = length vars /\
  (forall i c, nth_error vars i = Some (Some c) -> nth_error l i = Some c) /\ map fst (filter (fun p => match snd p with None => true | Some _ => false end) (combine l vars)) = x.
Proof.
  unfold getNumDims. induction vars as [|[c|] vars IH]; intros x H; simpl in *.
  - destruct x; [|discriminate]. exists []. repeat split; auto. intros [|i] c K; discriminate.
  - destruct (IH x H) as [l [E [L [K M]]]]. rewrite E. exists (c :: l). split; [auto|]. split; [simpl; auto|]. split; [intros [|i] d Hd; simpl in *; [congruence|auto]|]. simpl. exact M.
  - destruct x as [|a x]; [discriminate|]. injection H as H. destruct (IH x H) as [l [E [L [K M]]]]. rewrite E. exists (a :: l). split; [auto|]. split; [simpl; auto|]. split; [intros [|i] d Hd; simpl in *; [discriminate|auto]|]. simpl. now rewrite M.
Qed.
Lemma pick_free_ok vars : forall vals, length vals = length vars -> exists x, pick_free vars vals = Some x /\ length x = getNumDims vars /\
  forall l, xToVarVec vars x = Some l -> forall i, nth_error vars i = Some None -> nth_error l i = nth_error vals i.
Proof.
  unfold getNumDims. induction vars as [|[c|] vars IH]; intros [|a vals] H; simpl in *; try discriminate.
  - exists []. split; [auto|]. split; [auto|]. intros l _ [|i] K; discriminate.
  - destruct (IH vals) as [x [E [L K]]]; [congruence|]. rewrite E. exists x. split; [auto|]. split; [auto|]. intros l Hl [|i] Hi; simpl in *; [discriminate|].
    destruct (xToVarVec vars x) as [l'|]; [|discriminate]. inversion Hl. subst. simpl. now apply K.
  - destruct (IH vals) as [x [E [L K]]]; [congruence|]. rewrite E. exists (a :: x). split; auto. split; [simpl; congruence|]. intros l Hl. simpl in Hl.
    destruct (xToVarVec vars x) as [l'|]; [|discriminate]. inversion Hl. subst. intros [|i] Hi; simpl in *; auto.
Qed.

From Coq Require Import Arith NArith ZArith List Bool Lia FinFun.
From Verif Require Import AligSpec AligModel.
Import ListNotations.

(** ** cells *)
Lemma in_cells : forall I J i j, In (i, j) (cells I J) <-> i < I /\ j < J.
Proof.
  intros I J i j. unfold cells. rewrite in_flat_map. split.
  - intros (i' & Hi & H). apply in_map_iff in H. destruct H as (j' & E & Hj). inversion E; subst. apply in_seq in Hi, Hj. lia.
  - intros [Hi Hj]. exists i. split; [apply in_seq; lia|]. apply in_map_iff. exists j. split; auto. apply in_seq; lia.
Qed.
Lemma nodup_cells : forall I J, NoDup (cells I J).
Proof.
  intros I J. unfold cells. generalize (seq_NoDup I 0). induction (seq 0 I) as [|i l IH]; intro ND; simpl; [constructor|].
  inversion ND; subst.
  assert (X : forall (a b : list (nat * nat)), NoDup a -> NoDup b -> (forall z, In z a -> ~ In z b) -> NoDup (a ++ b)).
  { induction a as [|z a IHa]; intros b Ha Hb D; simpl; auto. inversion Ha; subst. constructor.
    - rewrite in_app_iff. intros [K|K]; [auto|]. apply (D z); [now left|auto].
    - apply IHa; auto. intros w Hw. apply D. now right. }
  apply X; auto.
  - apply FinFun.Injective_map_NoDup; [intros u v E; congruence|apply seq_NoDup].
  - intros [p q] K1 K2. apply in_map_iff in K1. destruct K1 as (u & E & _). inversion E; subst.
    apply in_flat_map in K2. destruct K2 as (i' & Hi' & K2). apply in_map_iff in K2. destruct K2 as (u' & E' & _). inversion E'; subst. contradiction.
Qed.

Lemma nz_true : forall v, nz v = true <-> v <> 0%N.
Proof. intro v. unfold nz. rewrite negb_true_iff, N.eqb_neq. tauto. Qed.
Lemma nz_false : forall v, nz v = false <-> v = 0%N.
Proof. intro v. unfold nz. rewrite negb_false_iff, N.eqb_eq. tauto. Qed.

Lemma wput_same : forall m i j v, wc (wput m i j v) i j = v.
Proof. intros. simpl. now rewrite !Nat.eqb_refl. Qed.
Lemma wput_other : forall m i j v i' j', (i', j') <> (i, j) -> wc (wput m i j v) i' j' = wc m i' j'.
Proof. intros. simpl. destruct (Nat.eqb_spec i' i), (Nat.eqb_spec j' j); simpl; auto. subst. congruence. Qed.

Lemma dims_eqb_true : forall m w, dims_eqb m w = true <-> same_dims m w.
Proof. intros. unfold dims_eqb, same_dims. rewrite andb_true_iff, !Nat.eqb_eq. tauto. Qed.
Lemma dims_eqb_false : forall m w, ~ same_dims m w -> dims_eqb m w = false.
Proof. intros m w H. destruct (dims_eqb m w) eqn:E; auto. apply dims_eqb_true in E. contradiction. Qed.

(** ** pointwise loops *)
Section POINTWISE.
Variable body : wam -> nat * nat -> wam.
Variable f : nat -> nat -> N -> N.
Hypothesis B : forall m i j, wI (body m (i, j)) = wI m /\ wJ (body m (i, j)) = wJ m /\
   wc (body m (i, j)) i j = f i j (wc m i j) /\ forall i' j', (i', j') <> (i, j) -> wc (body m (i, j)) i' j' = wc m i' j'.

Lemma fold_pointwise : forall cs m, NoDup cs -> let r := fold_left body cs m in
  wI r = wI m /\ wJ r = wJ m /\ (forall i j, In (i, j) cs -> wc r i j = f i j (wc m i j)) /\
  (forall i j, ~ In (i, j) cs -> wc r i j = wc m i j).
Proof.
  induction cs as [|[i j] cs IH]; intros m ND; [simpl; repeat split; intros; try tauto|]. inversion ND; subst.
  cbn [fold_left]. destruct (IH (body m (i, j)) H2) as (D1 & D2 & K1 & K2). destruct (B m i j) as (B1 & B2 & B3 & B4).
  cbv zeta. rewrite D1, D2. repeat split; auto.
  - intros i' j' [E|H].
    + inversion E; subst. rewrite K2 by auto. auto.
    + rewrite K1 by auto. rewrite B4; auto. intro E. inversion E; subst. contradiction.
  - intros i' j' H. rewrite K2 by (intro; apply H; now right). apply B4. intro E. apply H. left. congruence.
Qed.
Lemma for_pointwise : forall I J m, let r := for_ij I J body m in
  wI r = wI m /\ wJ r = wJ m /\ (forall i j, i < I -> j < J -> wc r i j = f i j (wc m i j)) /\ (forall i j, ~ (i < I /\ j < J) -> wc r i j = wc m i j).
Proof.
  intros I J m. destruct (fold_pointwise (cells I J) m (nodup_cells I J)) as (D1 & D2 & K1 & K2).
  unfold for_ij. repeat split; auto.
  - intros i j Hi Hj. apply K1. now apply in_cells.
  - intros i j H. apply K2. rewrite in_cells. auto.
Qed.
End POINTWISE.

Ltac pw := intros; repeat split; cbn [fst snd];
  repeat match goal with |- context [if ?b then _ else _] => destruct b eqn:? end;
  rewrite ?wput_same; auto; try (intros; now apply wput_other).

Theorem and_spec : forall m w, same_dims m w -> same_dims (w_and m w) m /\
  forall i j, inr m i j -> wc (w_and m w) i j = if nz (wc m i j) && nz (wc w i j) then wc m i j else 0%N.
Proof.
  intros m w D. unfold w_and. apply dims_eqb_true in D. rewrite D.
  destruct (for_pointwise (fun m c => if nz (wc m (fst c) (snd c)) && nz (wc w (fst c) (snd c)) then m else wput m (fst c) (snd c) 0)
     (fun i j v => if nz v && nz (wc w i j) then v else 0%N)) with (I := wI m) (J := wJ m) (m := m) as (D1 & D2 & K & _); [pw|].
  split; [split; auto|]. intros i j [Hi Hj]. now rewrite K.
Qed.
Theorem or_spec : forall m w, same_dims m w -> same_dims (w_or m w) m /\
  forall i j, inr m i j -> wc (w_or m w) i j = if nz (wc m i j) || nz (wc w i j) then 1%N else 0%N.
Proof.
  intros m w D. unfold w_or. apply dims_eqb_true in D. rewrite D.
  destruct (for_pointwise (fun m c => if nz (wc m (fst c) (snd c)) || nz (wc w (fst c) (snd c)) then wput m (fst c) (snd c) 1 else m)
     (fun i j v => if nz v || nz (wc w i j) then 1%N else v)) with (I := wI m) (J := wJ m) (m := m) as (D1 & D2 & K & _); [pw|].
  split; [split; auto|]. intros i j [Hi Hj]. rewrite K by auto. destruct (nz (wc m i j)) eqn:E; simpl; auto.
  destruct (nz (wc w i j)); auto. now apply nz_false.
Qed.
Theorem xor_spec : forall m w, same_dims m w -> same_dims (w_xor m w) m /\
  forall i j, inr m i j -> wc (w_xor m w) i j = if xorb (nz (wc m i j)) (nz (wc w i j)) then 1%N else 0%N.
Proof.
  intros m w D. unfold w_xor. apply dims_eqb_true in D. rewrite D.
  destruct (for_pointwise (fun m c => if (nz (wc m (fst c) (snd c)) && negb (nz (wc w (fst c) (snd c)))) || (negb (nz (wc m (fst c) (snd c))) && nz (wc w (fst c) (snd c)))
    then wput m (fst c) (snd c) 1 else wput m (fst c) (snd c) 0)
     (fun i j v => if (nz v && negb (nz (wc w i j))) || (negb (nz v) && nz (wc w i j)) then 1%N else 0%N)) with (I := wI m) (J := wJ m) (m := m) as (D1 & D2 & K & _); [pw|].
  split; [split; auto|]. intros i j [Hi Hj]. rewrite K by auto. destruct (nz (wc m i j)), (nz (wc w i j)); auto.
Qed.
Theorem minus_spec : forall m w, same_dims m w -> same_dims (w_minus m w) m /\
  forall i j, inr m i j -> wc (w_minus m w) i j = if nz (wc m i j) && negb (nz (wc w i j)) then 1%N else wc m i j.
Proof.
  intros m w D. unfold w_minus. apply dims_eqb_true in D. rewrite D.
  destruct (for_pointwise (fun m c => if nz (wc m (fst c) (snd c)) && negb (nz (wc w (fst c) (snd c))) then wput m (fst c) (snd c) 1 else m)
     (fun i j v => if nz v && negb (nz (wc w i j)) then 1%N else v)) with (I := wI m) (J := wJ m) (m := m) as (D1 & D2 & K & _); [pw|].
  split; [split; auto|]. intros i j [Hi Hj]. now rewrite K.
Qed.
Theorem flip_spec : forall m, same_dims (w_flip m) m /\ forall i j, inr m i j -> wc (w_flip m) i j = if nz (wc m i j) then 0%N else 1%N.
Proof.
  intros m. unfold w_flip.
  destruct (for_pointwise (fun m c => wput m (fst c) (snd c) (if nz (wc m (fst c) (snd c)) then 0 else 1)%N)
     (fun i j v => if nz v then 0%N else 1%N)) with (I := wI m) (J := wJ m) (m := m) as (D1 & D2 & K & _); [pw|].
  split; [split; auto|]. intros i j [Hi Hj]. now rewrite K.
Qed.
Theorem plus_spec : forall m w, same_dims m w -> same_dims (w_plus m w) m /\
  forall i j, inr m i j -> wc (w_plus m w) i j = ((wc m i j + wc w i j) mod 2 ^ 32)%N.
Proof.
  intros m w D. unfold w_plus. apply dims_eqb_true in D. rewrite D.
  destruct (for_pointwise (fun m c => wput m (fst c) (snd c) ((wc m (fst c) (snd c) + wc w (fst c) (snd c)) mod 2 ^ 32)%N)
     (fun i j v => ((v + wc w i j) mod 2 ^ 32)%N)) with (I := wI m) (J := wJ m) (m := m) as (D1 & D2 & K & _);
   [intros; repeat split; cbn [fst snd]; [apply wput_same|intros; now apply wput_other]|].
  split; [split; auto|]. intros i j [Hi Hj]. now rewrite K.
Qed.

Lemma inr_dims : forall m w i j, same_dims m w -> (inr m i j <-> inr w i j).
Proof. intros m w i j [E1 E2]. unfold inr. rewrite E1, E2. tauto. Qed.

Lemma inr_dec : forall m i j, {inr m i j} + {~ inr m i j}.
Proof. intros. unfold inr. destruct (lt_dec i (wI m)), (lt_dec j (wJ m)); auto; right; tauto. Qed.
Lemma link_nz : forall m i j, inr m i j -> (link m i j <-> nz (wc m i j) = true).
Proof. intros m i j H. unfold link. rewrite nz_true. tauto. Qed.
Lemma link_inr : forall m i j, link m i j -> inr m i j.
Proof. intros m i j [H _]. auto. Qed.

Lemma set_ops_links : forall m w, same_dims m w -> forall i j,
  (link (w_and m w) i j <-> link m i j /\ link w i j) /\
  (link (w_or m w) i j <-> link m i j \/ link w i j) /\
  (link (w_xor m w) i j <-> (link m i j /\ ~ link w i j) \/ (~ link m i j /\ link w i j)).
Proof.
  intros m w D i j.
  destruct (and_spec m w D) as [DA A], (or_spec m w D) as [DO O], (xor_spec m w D) as [DX X].
  destruct (inr_dec m i j) as [R|R].
  - rewrite !link_nz by (rewrite ?(inr_dims _ _ i j DA), ?(inr_dims _ _ i j DO), ?(inr_dims _ _ i j DX), <- ?(inr_dims _ _ i j D); auto).
    rewrite A, O, X by auto. destruct (nz (wc m i j)) eqn:E1, (nz (wc w i j)) eqn:E2; cbn [andb orb xorb]; rewrite ?E1;
    change (nz 1) with true; change (nz 0) with false; intuition congruence.
  - assert (~ link m i j) by (intro H; apply R, link_inr, H).
    assert (~ link w i j) by (intro H'; apply R, (inr_dims _ _ i j D), link_inr, H').
    assert (~ link (w_and m w) i j) by (intro H'; apply R, (inr_dims _ _ i j DA), link_inr, H').
    assert (~ link (w_or m w) i j) by (intro H'; apply R, (inr_dims _ _ i j DO), link_inr, H').
    assert (~ link (w_xor m w) i j) by (intro H'; apply R, (inr_dims _ _ i j DX), link_inr, H').
    tauto.
Qed.

Lemma set_ops_other_dims : forall m w, ~ same_dims m w -> w_and m w = m /\ w_or m w = m /\ w_xor m w = m /\ w_minus m w = m.
Proof. intros m w H. unfold w_and, w_or, w_xor, w_minus. rewrite dims_eqb_false by auto. auto. Qed.

Lemma minus_links : forall m w i j, link (w_minus m w) i j <-> link m i j.
Proof.
  intros m w i j. unfold w_minus at 1. destruct (dims_eqb m w) eqn:E; [|tauto]. 
  pose proof (proj1 (dims_eqb_true m w) E) as D. destruct (minus_spec m w D) as [DM M].
  unfold w_minus in DM, M. rewrite E in DM, M.
  destruct (inr_dec m i j) as [R|R].
  - rewrite !link_nz by (rewrite ?(inr_dims _ _ i j DM); auto). rewrite M by auto.
    destruct (nz (wc m i j)) eqn:E1, (nz (wc w i j)) eqn:E2; cbn [andb negb]; rewrite ?E1; change (nz 1) with true; tauto.
  - split; intro H; exfalso; apply R; [apply (inr_dims _ _ i j DM)|]; eapply link_inr; eauto.
Qed.

Lemma flip_links : forall m i j, inr m i j -> (link (w_flip m) i j <-> ~ link m i j).
Proof.
  intros m i j R. destruct (flip_spec m) as [D F]. rewrite !link_nz by (rewrite ?(inr_dims _ _ i j D); auto). rewrite F by auto.
  destruct (nz (wc m i j)) eqn:E; change (nz 1) with true; change (nz 0) with false; intuition congruence.
Qed.

(** ** transpose *)
Lemma transpose_spec : forall m, wI (w_transpose m) = wJ m /\ wJ (w_transpose m) = wI m /\
  forall i j, inr m i j -> wc (w_transpose m) j i = wc m i j.
Proof.
  intros m. unfold w_transpose, for_ij.
  assert (G : forall cs t, let r := fold_left (fun t c => wput t (snd c) (fst c) (wc m (fst c) (snd c))) cs t in
     wI r = wI t /\ wJ r = wJ t /\ (forall i j, (In (i, j) cs \/ wc t j i = wc m i j) -> wc r j i = wc m i j)).
  { induction cs as [|[i j] cs IH]; intros t; simpl; [tauto|].
    destruct (IH (wput t j i (wc m i j))) as (D1 & D2 & K). cbv zeta in *. rewrite D1, D2. repeat split; auto.
    intros i' j' H. apply K. destruct (Nat.eq_dec i' i) as [->|N1]; [destruct (Nat.eq_dec j' j) as [->|N2]|].
    - right. apply wput_same.
    - destruct H as [[H|H]|H]; [congruence|auto|]. right. rewrite wput_other by congruence. auto.
    - destruct H as [[H|H]|H]; [congruence|auto|]. right. rewrite wput_other by congruence. auto. }
  destruct (G (cells (wI m) (wJ m)) (w_init (wJ m) (wI m))) as (D1 & D2 & K). repeat split; auto.
  intros i j [Hi Hj]. apply K. left. now apply in_cells.
Qed.
Lemma transpose_links : forall m i j, link (w_transpose m) j i <-> link m i j.
Proof.
  intros m i j. destruct (transpose_spec m) as (D1 & D2 & K). unfold link, inr. rewrite D1, D2. split.
  - intros [[A B] C]. rewrite K in C by (split; auto). auto.
  - intros [[A B] C]. rewrite K by (split; auto). auto.
Qed.
Lemma transpose_twice : forall m, wsame (w_transpose (w_transpose m)) m.
Proof.
  intros m. destruct (transpose_spec m) as (D1 & D2 & K), (transpose_spec (w_transpose m)) as (E1 & E2 & L).
  split; [split; congruence|]. intros i j [Hi Hj]. rewrite E1, D2 in Hi. rewrite E2, D1 in Hj.
  rewrite L by (split; [rewrite D1|rewrite D2]; auto). apply K. split; auto.
Qed.

(** ** equality *)
Lemma w_eqb_true : forall m w, w_eqb m w = true <-> wsame m w.
Proof.
  intros m w. unfold w_eqb, wsame. rewrite andb_true_iff, dims_eqb_true, forallb_forall. split; intros [D H]; (split; [auto|]).
  - intros i j [Hi Hj]. symmetry. apply N.eqb_eq. apply (H (i, j)). now apply in_cells.
  - intros [i j] Hc. apply in_cells in Hc. cbn [fst snd]. apply N.eqb_eq. symmetry. apply H. exact Hc.
Qed.
Lemma wsame_refl : forall m, wsame m m.
Proof. intro m. repeat split; auto. Qed.

(** ** aligned tests *)
Lemma iAligned_true : forall m i, i < wI m -> (iAligned m i = true <-> row_aligned m i).
Proof.
  intros m i Hi. unfold iAligned, row_aligned. rewrite existsb_exists. split.
  - intros (j & Hj & N). apply in_seq in Hj. exists j. apply nz_true in N. repeat split; auto; lia.
  - intros (j & [[_ Hj] N]). exists j. split; [apply in_seq; lia|now apply nz_true].
Qed.
Lemma jAligned_true : forall m j, j < wJ m -> (jAligned m j = true <-> col_aligned m j).
Proof.
  intros m j Hj. unfold jAligned, col_aligned. rewrite existsb_exists. split.
  - intros (i & Hi & N). apply in_seq in Hi. exists i. apply nz_true in N. repeat split; auto; lia.
  - intros (i & [[Hi _] N]). exists i. split; [apply in_seq; lia|now apply nz_true].
Qed.
Lemma hasVert_true : forall m i j, inr m i j -> (hasVert m i j = true <-> vert m i j).
Proof.
  intros m i j [Hi Hj]. unfold hasVert, up, down, vert, link, inr.
  rewrite orb_true_iff, !andb_true_iff, !Nat.ltb_lt, !nz_true. split.
  - intros [[A B]|[A B]].
    + right. exists (i - 1). repeat split; auto; lia.
    + left. rewrite Nat.add_1_r in B. repeat split; auto; lia.
  - intros [[[A _] B]|(i' & -> & [_ B])].
    + right. rewrite Nat.add_1_r. split; auto. lia.
    + left. replace (S i' - 1) with i' by lia. split; auto. lia.
Qed.
Lemma hasHoriz_true : forall m i j, inr m i j -> (hasHoriz m i j = true <-> horiz m i j).
Proof.
  intros m i j [Hi Hj]. unfold hasHoriz, left, right, horiz, link, inr.
  rewrite orb_true_iff, !andb_true_iff, !Nat.ltb_lt, !nz_true. split.
  - intros [[A B]|[A B]].
    + right. exists (j - 1). repeat split; auto; lia.
    + left. rewrite Nat.add_1_r in B. repeat split; auto; lia.
  - intros [[[_ A] B]|(j' & -> & [_ B])].
    + right. rewrite Nat.add_1_r. split; auto. lia.
    + left. replace (S j' - 1) with j' by lia. split; auto. lia.
Qed.
Lemma inNeigh_true : forall m i j, inr m i j -> (inNeighbourhood m i j = true <-> vert m i j \/ horiz m i j).
Proof.
  intros m i j R. rewrite <- hasVert_true, <- hasHoriz_true by auto. unfold inNeighbourhood, hasVert, hasHoriz.
  rewrite !orb_true_iff. tauto.
Qed.

(** ** growing passes *)
Definition cnt (m : wam) : nat := length (filter (fun c => nz (wc m (fst c) (snd c))) (cells (wI m) (wJ m))).
Lemma filter_length_le : forall (X : Type) (f : X -> bool) l, length (filter f l) <= length l.
Proof. induction l; simpl; auto. destruct (f a); simpl; lia. Qed.
Lemma cells_length : forall I J, length (cells I J) = I * J.
Proof.
  intros. unfold cells. rewrite <- (seq_length I 0) at 2. induction (seq 0 I) as [|i l IH]; simpl; auto.
  rewrite app_length, map_length, seq_length, IH. auto.
Qed.
Lemma cnt_le : forall m, cnt m <= wI m * wJ m.
Proof. intro m. unfold cnt. rewrite <- cells_length. apply filter_length_le. Qed.
Lemma filter_grow : forall (X : Type) (f g : X -> bool) l x, (forall y, f y = true -> g y = true) -> In x l -> f x = false -> g x = true ->
  length (filter f l) < length (filter g l).
Proof.
  intros X f g l x M. assert (L : forall l, length (filter f l) <= length (filter g l)).
  { induction l0; simpl; auto. destruct (f a) eqn:E; [rewrite (M _ E); simpl; lia|]. destruct (g a); simpl; lia. }
  induction l as [|a l IH]; intros Hx Fx Gx; [contradiction|]. destruct Hx as [->|Hx].
  - simpl. rewrite Fx, Gx. simpl. specialize (L l). lia.
  - simpl. specialize (IH Hx Fx Gx). destruct (f a) eqn:E; [rewrite (M _ E); simpl; lia|]. destruct (g a); simpl; lia.
Qed.
Lemma wput_cnt : forall m i j, inr m i j -> wc m i j = 0%N -> cnt m < cnt (wput m i j 1).
Proof.
  intros m i j [Hi Hj] Z. unfold cnt. change (wI (wput m i j 1)) with (wI m). change (wJ (wput m i j 1)) with (wJ m).
  apply filter_grow with (x := (i, j)).
  - intros [a b]. cbn [fst snd wput wc]. destruct ((a =? i) && (b =? j)); auto.
  - now apply in_cells.
  - now apply nz_false.
  - cbn [fst snd]. rewrite wput_same. reflexivity.
Qed.
Lemma cnt_same : forall m w, wsame m w -> cnt m = cnt w.
Proof.
  intros m w [[E1 E2] H]. unfold cnt. rewrite <- E1, <- E2. f_equal. apply filter_ext_in. intros [i j] Hc. cbn [fst snd].
  rewrite H; auto. apply in_cells in Hc. exact Hc.
Qed.

(** [grows U m m']: m' has all of m's values and possibly some links satisfying U *)
Definition grows (U : nat -> nat -> Prop) (m m' : wam) : Prop :=
  same_dims m m' /\ cnt m <= cnt m' /\ (cnt m = cnt m' -> m' = m) /\
  (forall i j, link m i j -> link m' i j) /\ (forall i j, link m' i j -> link m i j \/ U i j).
Ltac gsplit := split; [split|split; [|split; [|split]]].
Lemma grows_refl : forall U m, grows U m m.
Proof. intros. gsplit; auto. Qed.
Lemma grows_trans : forall U a b c, grows U a b -> grows U b c -> grows U a c.
Proof.
  intros U a b c ((A1 & A2) & A3 & A4 & A5 & A6) ((B1 & B2) & B3 & B4 & B5 & B6). gsplit; try congruence; try lia; auto.
  - intro E. assert (X : cnt a = cnt b) by lia. specialize (A4 X). subst b. apply B4. lia.
  - intros i j H. apply B6 in H. destruct H; auto.
Qed.
Lemma grows_mono : forall (U V : nat -> nat -> Prop) m m', (forall i j, U i j -> V i j) -> grows U m m' -> grows V m m'.
Proof. intros U V m m' H (A1 & A3 & A4 & A5 & A6). gsplit; auto; try apply A1. intros i j K. destruct (A6 i j K); auto. Qed.
Lemma grows_put : forall (U : nat -> nat -> Prop) m i j, inr m i j -> wc m i j = 0%N -> U i j -> grows U m (wput m i j 1).
Proof.
  intros U m i j R Z H. pose proof (wput_cnt m i j R Z) as C. gsplit; auto; try lia.
  - intros i' j' [R' N]. split; [exact R'|]. rewrite wput_other; auto. congruence.
  - intros i' j' [R' N]. destruct (Nat.eq_dec i' i) as [->|N1]; [destruct (Nat.eq_dec j' j) as [->|N2]|]; auto;
    left; rewrite wput_other in N by congruence; split; auto.
Qed.

Section GROWFOLD.
Variable U : nat -> nat -> Prop.
Variable step : wam -> nat * nat -> wam.
Variables I J : nat.
Lemma grow_fold : forall cs m, (forall m c, In c cs -> wI m = I -> wJ m = J -> grows U m (step m c)) ->
  wI m = I -> wJ m = J -> grows U m (fold_left step cs m) /\
  (cnt (fold_left step cs m) = cnt m -> forall c, In c cs -> step m c = m).
Proof.
  induction cs as [|c cs IH]; intros m H EI EJ; [split; [apply grows_refl|intros _ c []]|].
  cbn [fold_left]. assert (G : grows U m (step m c)) by (apply H; simpl; auto).
  destruct (IH (step m c)) as [G2 K].
  { intros; apply H; simpl; auto. } { destruct G as ((D1 & _) & _). congruence. } { destruct G as ((_ & D2) & _). congruence. }
  split; [eapply grows_trans; eauto|]. intros E c' Hc.
  destruct G as (_ & L1 & Q1 & _). destruct G2 as (_ & L2 & Q2 & _).
  assert (X : step m c = m) by (apply Q1; lia). rewrite X in *.
  destruct Hc as [->|Hc]; auto.
Qed.
End GROWFOLD.

(** ** the outer loops *)
Section LOOPS.
Variable U : nat -> nat -> Prop.
Variable pass : wam -> wam.
Variables I J : nat.
Hypothesis P : forall m, wI m = I -> wJ m = J -> grows U m (pass m).

Lemma sym_loop_inner : forall fuel m, wI m = I -> wJ m = J -> I * J < fuel + cnt m ->
  exists r, sym_loop pass fuel m (pass m) = Some r /\ grows U m r /\ pass r = r.
Proof.
  induction fuel as [|fuel IH]; intros m EI EJ HF.
  - pose proof (cnt_le m). rewrite EI, EJ in H. lia.
  - cbn [sym_loop]. pose proof (P m EI EJ) as G. destruct (w_eqb (pass m) m) eqn:E.
    + exists (pass m). apply w_eqb_true in E. apply cnt_same in E. destruct G as (D & L & Q & R). assert (X : pass m = m) by (apply Q; auto). rewrite !X.
      split; auto. split; auto. apply grows_refl.
    + assert (L : cnt m < cnt (pass m)).
      { destruct G as (D & L & Q & R). destruct (Nat.eq_dec (cnt m) (cnt (pass m))) as [X|X]; [|lia].
        rewrite Q in E by auto. rewrite (proj2 (w_eqb_true m m) (wsame_refl m)) in E. discriminate. }
      destruct (IH (pass m)) as (r & E1 & E2 & E3); [destruct G as ((?&?)&_); congruence|destruct G as ((?&?)&_); congruence|lia|].
      exists r. split; auto. split; auto. eapply grows_trans; eauto.
Qed.

Lemma grow_loop_ok : forall fuel m, wI m = I -> wJ m = J -> I * J < fuel + cnt m ->
  exists r, grow_loop pass fuel m = Some r /\ grows U m r /\ pass r = r.
Proof.
  induction fuel as [|fuel IH]; intros m EI EJ HF.
  - pose proof (cnt_le m). rewrite EI, EJ in H. lia.
  - cbn [grow_loop]. cbv zeta. pose proof (P m EI EJ) as G. destruct (w_eqb m (pass m)) eqn:E.
    + exists (pass m). apply w_eqb_true in E. apply cnt_same in E. destruct G as (D & L & Q & R). assert (X : pass m = m) by (apply Q; auto). rewrite !X.
      split; auto. split; auto. apply grows_refl.
    + assert (L : cnt m < cnt (pass m)).
      { destruct G as (D & L & Q & R). destruct (Nat.eq_dec (cnt m) (cnt (pass m))) as [X|X]; [|lia].
        rewrite Q in E by auto. rewrite (proj2 (w_eqb_true m m) (wsame_refl m)) in E. discriminate. }
      destruct (IH (pass m)) as (r & E1 & E2 & E3); [destruct G as ((?&?)&_); congruence|destruct G as ((?&?)&_); congruence|lia|].
      exists r. split; auto. split; auto. eapply grows_trans; eauto.
Qed.
End LOOPS.

Definition union_of (m w : wam) (i j : nat) : Prop := link m i j \/ link w i j.

Lemma sym1_step_grows : forall src w m c, same_dims src w -> In c (cells (wI src) (wJ src)) -> wI m = wI src -> wJ m = wJ src ->
  grows (union_of src w) m (sym1_step src w m c).
Proof.
  intros src w m [i j] D Hc EI EJ. apply in_cells in Hc. unfold sym1_step.
  destruct (nz (wc w i j) || nz (wc src i j)) eqn:Eu; cbn [andb]; [|apply grows_refl].
  destruct (nz (wc m i j)) eqn:Em; cbn [negb]; [apply grows_refl|]. apply nz_false in Em.
  assert (R : inr m i j) by (unfold inr; rewrite EI, EJ; auto).
  assert (UU : union_of src w i j).
  { assert (Rs : inr src i j) by exact Hc. assert (Rw : inr w i j) by (apply (inr_dims _ _ i j D); auto).
    unfold union_of. rewrite !link_nz by auto. apply orb_true_iff in Eu. tauto. }
  destruct (negb (jAligned m j) && negb (iAligned m i)); [now apply grows_put|].
  destruct (inNeighbourhood m i j); [now apply grows_put|apply grows_refl].
Qed.
Lemma sym2_step_grows : forall src w m c, same_dims src w -> In c (cells (wI src) (wJ src)) -> wI m = wI src -> wJ m = wJ src ->
  grows (union_of src w) m (sym2_step src w m c).
Proof.
  intros src w m [i j] D Hc EI EJ. apply in_cells in Hc. unfold sym2_step.
  destruct (nz (wc w i j) || nz (wc src i j)) eqn:Eu; cbn [andb]; [|apply grows_refl].
  destruct (nz (wc m i j)) eqn:Em; cbn [negb]; [apply grows_refl|]. apply nz_false in Em.
  assert (R : inr m i j) by (unfold inr; rewrite EI, EJ; auto).
  assert (UU : union_of src w i j).
  { assert (Rs : inr src i j) by exact Hc. assert (Rw : inr w i j) by (apply (inr_dims _ _ i j D); auto).
    unfold union_of. rewrite !link_nz by auto. apply orb_true_iff in Eu. tauto. }
  destruct (negb (jAligned m j) && negb (iAligned m i)); [now apply grows_put|].
  destruct (inNeighbourhood m i j); [|apply grows_refl]. destruct (negb (hasHoriz m i j && hasVert m i j)); [now apply grows_put|apply grows_refl].
Qed.

(** a put that leaves the matrix as it was means the cell was set *)
Lemma wput_id : forall m i j, inr m i j -> wc m i j = 0%N -> wput m i j 1 = m -> False.
Proof. intros m i j R Z E. pose proof (wput_cnt m i j R Z). rewrite E in H. lia. Qed.

(** generic statement for the two neighbourhood symmetrizations *)
Section SYM.
Variable step : wam -> wam -> wam -> nat * nat -> wam.
Hypothesis SG : forall src w m c, same_dims src w -> In c (cells (wI src) (wJ src)) -> wI m = wI src -> wJ m = wJ src ->
  grows (union_of src w) m (step src w m c).

Lemma sym_ok : forall m w, same_dims m w -> exists r,
  sym_loop (for_ij (wI m) (wJ m) (step m w)) (fuel_for m) w_empty (w_and m w) = Some r /\ grows (union_of m w) (w_and m w) r /\
  forall c, In c (cells (wI m) (wJ m)) -> step m w r c = r.
Proof.
  intros m w D. destruct (and_spec m w D) as [[DI DJ] _]. set (pass := for_ij (wI m) (wJ m) (step m w)).
  assert (GF : forall q, wI q = wI m -> wJ q = wJ m -> grows (union_of m w) q (pass q) /\ (cnt (pass q) = cnt q -> forall c, In c (cells (wI m) (wJ m)) -> step m w q c = q)).
  { intros q EI EJ. apply grow_fold with (I := wI m) (J := wJ m); auto. }
  unfold fuel_for. replace (wI m * wJ m + 2) with (S (wI m * wJ m + 1)) by lia. cbn [sym_loop].
  destruct (w_eqb (w_and m w) w_empty) eqn:E.
  - exists (w_and m w). split; auto. split; [apply grows_refl|]. apply w_eqb_true in E. destruct E as [[E1 E2] _]. simpl in E1.
    rewrite <- DI, E1. intros c [].
  - destruct (sym_loop_inner (union_of m w) pass (wI m) (wJ m)) with (fuel := wI m * wJ m + 1) (m := w_and m w) as (r & E1 & E2 & E3); auto; try lia.
    { intros; apply GF; auto. }
    exists r. split; auto. split; auto. destruct E2 as ((D1 & D2) & _). apply GF; congruence.
Qed.
End SYM.

Lemma between : forall m w r, same_dims m w -> grows (union_of m w) (w_and m w) r ->
  same_dims r m /\ (forall i j, link m i j /\ link w i j -> link r i j) /\ (forall i j, link r i j -> link m i j \/ link w i j).
Proof.
  intros m w r D (DD & _ & _ & G1 & G2). destruct (and_spec m w D) as [[DI DJ] _]. destruct DD as [X1 X2].
  split; [split; congruence|]. split.
  - intros i j H. apply G1. apply (proj1 (set_ops_links m w D i j)). auto.
  - intros i j H. destruct (G2 i j H) as [K|K]; auto. apply (proj1 (set_ops_links m w D i j)) in K. tauto.
Qed.

Theorem symmetr1_ok : forall m w, same_dims m w -> exists r, symmetr1 m w = Some r /\ same_dims r m /\
  (forall i j, link m i j /\ link w i j -> link r i j) /\ (forall i j, link r i j -> link m i j \/ link w i j) /\
  (forall i j, (link m i j \/ link w i j) -> ~ link r i j -> (row_aligned r i \/ col_aligned r j) /\ ~ horiz r i j /\ ~ vert r i j).
Proof.
  intros m w D. unfold symmetr1. rewrite (proj2 (dims_eqb_true m w) D).
  destruct (sym_ok sym1_step sym1_step_grows m w D) as (r & E & G & F). exists r. split; auto.
  destruct (between m w r D G) as (DR & B1 & B2). split; auto. split; auto. split; auto.
  intros i j Uij N.
  assert (R : inr m i j) by (destruct Uij as [H|H]; [eapply link_inr; eauto|apply (inr_dims _ _ i j D); eapply link_inr; eauto]).
  assert (Rr : inr r i j) by (apply (inr_dims _ _ i j DR); auto).
  assert (Rw : inr w i j) by (apply (inr_dims _ _ i j D); auto).
  specialize (F (i, j)). unfold sym1_step in F. rewrite in_cells in F. specialize (F R).
  rewrite link_nz in N by auto. apply not_true_is_false in N. rewrite N in F.
  replace (nz (wc w i j) || nz (wc m i j)) with true in F
    by (symmetry; apply orb_true_iff; rewrite !link_nz in Uij by auto; tauto).
  cbn [andb negb] in F. apply nz_false in N.
  destruct (jAligned r j) eqn:EJ, (iAligned r i) eqn:EI; cbn [negb andb] in F; try (exfalso; exact (wput_id r i j Rr N F));
  destruct (inNeighbourhood r i j) eqn:EN; try (exfalso; exact (wput_id r i j Rr N F));
  (split; [rewrite <- iAligned_true by apply Rr; rewrite <- jAligned_true by apply Rr; tauto|]);
  (split; intro H; [assert (X : vert r i j \/ horiz r i j) by auto|assert (X : vert r i j \/ horiz r i j) by auto];
   apply inNeigh_true in X; auto; congruence).
Qed.

Theorem symmetr2_ok : forall m w, same_dims m w -> exists r, symmetr2 m w = Some r /\ same_dims r m /\
  (forall i j, link m i j /\ link w i j -> link r i j) /\ (forall i j, link r i j -> link m i j \/ link w i j) /\
  (forall i j, (link m i j \/ link w i j) -> ~ link r i j -> (row_aligned r i \/ col_aligned r j) /\
     ((~ horiz r i j /\ ~ vert r i j) \/ (horiz r i j /\ vert r i j))).
Proof.
  intros m w D. unfold symmetr2. rewrite (proj2 (dims_eqb_true m w) D).
  destruct (sym_ok sym2_step sym2_step_grows m w D) as (r & E & G & F). exists r. split; auto.
  destruct (between m w r D G) as (DR & B1 & B2). split; auto. split; auto. split; auto.
  intros i j Uij N.
  assert (R : inr m i j) by (destruct Uij as [H|H]; [eapply link_inr; eauto|apply (inr_dims _ _ i j D); eapply link_inr; eauto]).
  assert (Rr : inr r i j) by (apply (inr_dims _ _ i j DR); auto).
  assert (Rw : inr w i j) by (apply (inr_dims _ _ i j D); auto).
  specialize (F (i, j)). unfold sym2_step in F. rewrite in_cells in F. specialize (F R).
  rewrite link_nz in N by auto. apply not_true_is_false in N. rewrite N in F.
  replace (nz (wc w i j) || nz (wc m i j)) with true in F
    by (symmetry; apply orb_true_iff; rewrite !link_nz in Uij by auto; tauto).
  cbn [andb negb] in F. apply nz_false in N.
  assert (AL : row_aligned r i \/ col_aligned r j).
  { rewrite <- iAligned_true by apply Rr. rewrite <- jAligned_true by apply Rr.
    destruct (jAligned r j) eqn:EJ, (iAligned r i) eqn:EI; auto. cbn [negb andb] in F. exfalso. exact (wput_id r i j Rr N F). }
  split; auto.
  assert (F' : (if inNeighbourhood r i j then if negb (hasHoriz r i j && hasVert r i j) then wput r i j 1 else r else r) = r).
  { destruct (negb (jAligned r j) && negb (iAligned r i)); auto. exfalso. exact (wput_id r i j Rr N F). }
  rewrite <- hasHoriz_true, <- hasVert_true by auto.
  destruct (inNeighbourhood r i j) eqn:EN.
  - right. destruct (hasHoriz r i j), (hasVert r i j); cbn [andb negb] in F'; auto; exfalso; exact (wput_id r i j Rr N F').
  - left. rewrite hasHoriz_true, hasVert_true by auto.
    assert (X : ~ (vert r i j \/ horiz r i j)) by (rewrite <- inNeigh_true by auto; congruence). tauto.
Qed.

(** ** growDiagFinal *)
Lemma add_step_grows : forall other m c, same_dims m other -> In c (cells (wI m) (wJ m)) -> grows (link other) m (add_step other m c).
Proof.
  intros other m [i j] D Hc. apply in_cells in Hc. unfold add_step.
  destruct (negb (iAligned m i) || negb (jAligned m j)) eqn:A; cbn [andb]; [|apply grows_refl].
  destruct (nz (wc other i j)) eqn:E; [|apply grows_refl].
  unfold w_set, w_setValue. destruct Hc as [Hi Hj]. rewrite (proj2 (Nat.ltb_lt _ _) Hi), (proj2 (Nat.ltb_lt _ _) Hj). cbn [andb].
  assert (R : inr m i j) by (split; auto).
  apply grows_put; auto.
  - destruct (N.eq_dec (wc m i j) 0) as [Z|NZ]; auto. exfalso.
    assert (L : link m i j) by (split; auto).
    assert (iAligned m i = true) by (apply iAligned_true; [auto|exists j; auto]).
    assert (jAligned m j = true) by (apply jAligned_true; [auto|exists i; auto]).
    rewrite H, H0 in A. discriminate.
  - apply link_nz; auto. apply (inr_dims _ _ i j D). auto.
Qed.

Lemma in_adjacent : forall m i j i' j', In (i', j') (obtainAdjacentCells m i j) -> i' < wI m /\ j' < wJ m.
Proof.
  intros m i j i' j' H. unfold obtainAdjacentCells in H. apply in_flat_map in H. destruct H as (di & _ & H).
  apply in_flat_map in H. destruct H as (dj & _ & H).
  destruct (negb (di =? 0)%Z || negb (dj =? 0)%Z); [|destruct H]. cbv zeta in H.
  destruct ((Z.of_nat i + di <? Z.of_nat (wI m))%Z && (Z.of_nat j + dj <? Z.of_nat (wJ m))%Z && (0 <=? Z.of_nat i + di)%Z && (0 <=? Z.of_nat j + dj)%Z) eqn:E; [|destruct H].
  destruct H as [H|[]]. inversion H; subst. rewrite !andb_true_iff, !Z.ltb_lt, !Z.leb_le in E. lia.
Qed.

Lemma grow_step_grows : forall join m c, same_dims m join -> In c (cells (wI m) (wJ m)) -> grows (link join) m (grow_step join m c).
Proof.
  intros join m [i j] D Hc. unfold grow_step. destruct (nz (wc m i j)); [|apply grows_refl].
  apply grow_fold with (I := wI m) (J := wJ m); auto. intros q [i' j'] H EI EJ. apply add_step_grows.
  - destruct D. split; congruence.
  - rewrite EI, EJ. apply in_cells. eapply in_adjacent; eauto.
Qed.

(** after a final pass every link of the matrix it reads has both of its words aligned *)
Lemma final_pass : forall other m, same_dims m other -> let r := for_ij (wI m) (wJ m) (add_step other) m in
  grows (link other) m r /\ forall i j, link other i j -> row_aligned r i /\ col_aligned r j.
Proof.
  intros other m D.
  assert (G : forall cs q, (forall c, In c cs -> In c (cells (wI m) (wJ m))) -> wI q = wI m -> wJ q = wJ m ->
     grows (link other) q (fold_left (add_step other) cs q) /\
     forall i j, In (i, j) cs -> link other i j -> row_aligned (fold_left (add_step other) cs q) i /\ col_aligned (fold_left (add_step other) cs q) j).
  { induction cs as [|[i j] cs IH]; intros q Hcs EI EJ; [split; [apply grows_refl|intros ? ? []]|]. cbn [fold_left].
    assert (Hij : i < wI m /\ j < wJ m) by (apply in_cells; apply Hcs; now left).
    assert (G1 : grows (link other) q (add_step other q (i, j))).
    { apply add_step_grows; [destruct D; split; congruence|]. rewrite EI, EJ. apply Hcs. now left. }
    destruct (IH (add_step other q (i, j))) as [G2 K]; [intros; apply Hcs; now right|destruct G1 as ((?&?)&_); congruence|destruct G1 as ((?&?)&_); congruence|].
    split; [eapply grows_trans; eauto|]. intros i' j' [E|H] L; [|auto]. inversion E; subst i' j'.
    destruct G2 as (_ & _ & _ & M & _).
    assert (A : row_aligned (add_step other q (i, j)) i /\ col_aligned (add_step other q (i, j)) j).
    { unfold add_step. destruct (iAligned q i) eqn:AI, (jAligned q j) eqn:AJ; cbn [negb orb andb].
      - split; [apply iAligned_true; auto; lia|apply jAligned_true; auto; lia].
      - destruct L as [_ L]. rewrite (proj2 (nz_true _) L). unfold w_set, w_setValue. rewrite EI, EJ.
        rewrite (proj2 (Nat.ltb_lt _ _) (proj1 Hij)), (proj2 (Nat.ltb_lt _ _) (proj2 Hij)). cbn [andb].
        assert (X : link (wput q i j 1) i j) by (split; [split; simpl; lia|rewrite wput_same; lia]). split; eexists; eauto.
      - destruct L as [_ L]. rewrite (proj2 (nz_true _) L). unfold w_set, w_setValue. rewrite EI, EJ.
        rewrite (proj2 (Nat.ltb_lt _ _) (proj1 Hij)), (proj2 (Nat.ltb_lt _ _) (proj2 Hij)). cbn [andb].
        assert (X : link (wput q i j 1) i j) by (split; [split; simpl; lia|rewrite wput_same; lia]). split; eexists; eauto.
      - destruct L as [_ L]. rewrite (proj2 (nz_true _) L). unfold w_set, w_setValue. rewrite EI, EJ.
        rewrite (proj2 (Nat.ltb_lt _ _) (proj1 Hij)), (proj2 (Nat.ltb_lt _ _) (proj2 Hij)). cbn [andb].
        assert (X : link (wput q i j 1) i j) by (split; [split; simpl; lia|rewrite wput_same; lia]). split; eexists; eauto. }
    destruct A as [[a A1] [b A2]]. split; eexists; apply M; eauto. }
  destruct (G (cells (wI m) (wJ m)) m) as [G1 G2]; auto. cbv zeta. unfold for_ij. split; auto.
  intros i j L. apply G2; auto. apply in_cells. destruct L as [R _]. apply (inr_dims _ _ i j D) in R. exact R.
Qed.

Theorem growDiagFinal_ok : forall m w, same_dims m w -> exists r, growDiagFinal m w = Some r /\ same_dims r m /\
  (forall i j, link m i j /\ link w i j -> link r i j) /\ (forall i j, link r i j -> link m i j \/ link w i j) /\
  (forall i j, (link m i j \/ link w i j) -> row_aligned r i /\ col_aligned r j).
Proof.
  intros m w D. unfold growDiagFinal. rewrite (proj2 (dims_eqb_true m w) D). cbv zeta.
  destruct (and_spec m w D) as [[AI AJ] _]. destruct (or_spec m w D) as [[OI OJ] _].
  set (join := w_or m w) in *. set (pass := for_ij (wI m) (wJ m) (grow_step join)).
  destruct (grow_loop_ok (union_of m w) pass (wI m) (wJ m)) with (fuel := fuel_for m) (m := w_and m w) as (g & E & G & _); auto.
  { intros q EI EJ. unfold pass, for_ij. eapply grows_mono; [|eapply grow_fold with (U := link join) (I := wI m) (J := wJ m); auto].
    - intros i j L. apply (set_ops_links m w D i j) in L. exact L.
    - intros q' c Hc EI' EJ'. apply grow_step_grows; [split; congruence|]. now rewrite EI', EJ'. }
  { unfold fuel_for. lia. }
  rewrite E. assert (DG : same_dims g m) by (destruct G as ((?&?)&_); split; congruence).
  pose proof (final_pass m g DG) as [F1 K1]. replace (wI g) with (wI m) in * by (destruct DG; congruence). replace (wJ g) with (wJ m) in * by (destruct DG; congruence).
  set (s := for_ij (wI m) (wJ m) (add_step m) g) in *.
  assert (DS : same_dims s w) by (destruct F1 as ((?&?)&_); destruct DG, D; split; congruence).
  pose proof (final_pass w s DS) as [F2 K2].
  replace (wI s) with (wI m) in * by (destruct DS, D; congruence). replace (wJ s) with (wJ m) in * by (destruct DS, D; congruence).
  set (r := for_ij (wI m) (wJ m) (add_step w) s) in *.
  exists r. split; auto.
  assert (GR : grows (union_of m w) (w_and m w) r).
  { eapply grows_trans; [exact G|]. eapply grows_trans; [eapply grows_mono; [|exact F1]|eapply grows_mono; [|exact F2]]; unfold union_of; auto. }
  destruct (between m w r D GR) as (B0 & B1 & B2). split; auto. split; auto. split; auto.
  intros i j [L|L]; [|apply K2; auto]. destruct (K1 i j L) as [[a X] [b Y]].
  destruct F2 as (_ & _ & _ & M & _). split; eexists; apply M; eauto.
Qed.

Lemma symmetr_other_dims : forall m w, ~ same_dims m w -> symmetr1 m w = Some m /\ symmetr2 m w = Some m /\ growDiagFinal m w = Some m.
Proof. intros m w H. unfold symmetr1, symmetr2, growDiagFinal. rewrite dims_eqb_false by auto. auto. Qed.

(** ** alignment vectors *)
Lemma put_from_spec : forall v m j0, (forall a, In a v -> a <= wI m) -> j0 + length v <= wJ m ->
  exists r, put_from m j0 v = Some r /\ same_dims r m /\
  forall i j, link r i j <-> link m i j \/ (inr m i j /\ j0 <= j /\ nth_error v (j - j0) = Some (S i)).
Proof.
  induction v as [|a v IH]; intros m j0 HA HL.
  - exists m. split; [reflexivity|]. split; [split; auto|]. intros i j. split; auto. intros [H|(_ & _ & H)]; auto. destruct (j - j0); discriminate.
  - simpl in HL. cbn [put_from]. destruct (Nat.ltb_spec 0 a) as [P|P].
    + rewrite (proj2 (Nat.leb_le a (wI m))) by (apply HA; now left).
      destruct (IH (wput m (a - 1) j0 1) (S j0)) as (r & E & D & L); [intros; apply HA; now right|simpl; lia|].
      exists r. split; auto. split; [exact D|]. intros i j. rewrite L.
      assert (W : link (wput m (a - 1) j0 1) i j <-> link m i j \/ (i = a - 1 /\ j = j0)).
      { assert (Ra : inr m (a - 1) j0) by (split; [specialize (HA a (or_introl eq_refl)); lia|lia]).
        destruct (Nat.eq_dec i (a - 1)) as [->|N1]; [destruct (Nat.eq_dec j j0) as [->|N2]|].
        - split; [auto|]. intros _. split; [exact Ra|]. rewrite wput_same. lia.
        - unfold link. rewrite wput_other by congruence. unfold inr. simpl. intuition.
        - unfold link. rewrite wput_other by congruence. unfold inr. simpl. intuition. }
      rewrite W. unfold inr in *. simpl.
      split.
      * intros [[H|[-> ->]]|(R & H1 & H2)]; auto.
        -- right. specialize (HA a (or_introl eq_refl)). rewrite Nat.sub_diag. simpl. repeat split; try lia. f_equal. lia.
        -- right. repeat split; try lia; try tauto. replace (j - j0) with (S (j - S j0)) by lia. simpl. auto.
      * intros [H|(R & H1 & H2)]; auto. destruct (Nat.eq_dec j j0) as [->|N].
        -- rewrite Nat.sub_diag in H2. simpl in H2. inversion H2. left. right. split; lia.
        -- right. repeat split; try tauto; try lia. replace (j - j0) with (S (j - S j0)) in H2 by lia. simpl in H2. auto.
    + assert (a = 0) by lia. subst a.
      destruct (IH m (S j0)) as (r & E & D & L); [intros; apply HA; now right|lia|].
      exists r. split; auto. split; auto. intros i j. rewrite L. split; (intros [H|(R & H1 & H2)]; [auto|]).
      * right. repeat split; try lia; try apply R. replace (j - j0) with (S (j - S j0)) by lia. simpl. auto.
      * right. destruct (Nat.eq_dec j j0) as [->|N]; [rewrite Nat.sub_diag in H2; discriminate|].
        repeat split; try lia; try apply R. replace (j - j0) with (S (j - S j0)) in H2 by lia. simpl in H2. auto.
Qed.

Theorem putAligVec_spec : forall m v, length v = wJ m -> (forall a, In a v -> a <= wI m) ->
  exists r, putAligVec m v = Some r /\ same_dims r m /\ forall i j, link r i j <-> link m i j \/ nth_error v j = Some (S i).
Proof.
  intros m v HL HA. unfold putAligVec. rewrite (proj2 (Nat.eqb_eq _ _) HL).
  destruct (put_from_spec v m 0 HA) as (r & E & D & L); [simpl; lia|]. exists r. split; auto. split; auto.
  intros i j. rewrite L. rewrite Nat.sub_0_r. split; intros [H|H]; auto; [tauto|]. right. split; [|split; [lia|auto]].
  split; [specialize (HA (S i) (nth_error_In _ _ H)); lia|]. rewrite <- HL. apply nth_error_Some. congruence.
Qed.

(** one column: links below row 0 decide *)
Definition colrows (m : wam) (n j : nat) : list nat := filter (fun i => nz (wc m i j) && negb (i =? 0)) (seq 0 n).
Lemma get_col_spec : forall m j, get_col m j = match colrows m (wI m) j with [] => Some 0 | [i] => Some i | _ => None end.
Proof.
  intros m j. unfold get_col, colrows. generalize (wI m) as n. induction n as [|n IH]; [reflexivity|].
  rewrite seq_S, fold_left_app, filter_app. cbn [fold_left plus]. rewrite IH. clear IH.
  assert (P : forall i, In i (filter (fun i => nz (wc m i j) && negb (i =? 0)) (seq 0 n)) -> i <> 0 /\ i < n).
  { intros i H. apply filter_In in H. destruct H as [S H]. apply andb_true_iff in H. destruct H as [_ H]. apply negb_true_iff, Nat.eqb_neq in H.
    apply in_seq in S. split; auto; lia. }
  cbn [filter].
  destruct (filter (fun i => nz (wc m i j) && negb (i =? 0)) (seq 0 n)) as [|a [|b l]].
  - destruct (nz (wc m n j)); cbn [andb]; auto. destruct n; reflexivity.
  - destruct (P a (or_introl eq_refl)) as [A1 A2]. rewrite (proj2 (Nat.eqb_neq a 0) A1).
    destruct (nz (wc m n j)); cbn [andb]; [|reflexivity]. destruct (Nat.eqb_spec n 0); [lia|]. reflexivity.
  - destruct (nz (wc m n j)); cbn [andb]; [destruct (negb (n =? 0))|]; reflexivity.
Qed.

Lemma getAligVec_cols : forall m v, getAligVec m = Some v <-> length v = wJ m /\ forall j, j < wJ m -> get_col m j = nth_error v j.
Proof.
  intros m. unfold getAligVec. generalize (wJ m) as n. induction n as [|n IH]; intros v.
  - simpl. split.
    + intro E. inversion E. split; auto. intros; lia.
    + intros [L _]. destruct v; [reflexivity|discriminate].
  - rewrite seq_S, fold_left_app. cbn [fold_left plus].
    set (g := fold_left _ (seq 0 n) (Some [])) in *. split.
    + destruct g as [u|]; [|discriminate]. destruct (get_col m n) as [a|] eqn:EC; [|discriminate]. intro E. inversion E; subst v.
      destruct (proj1 (IH u) eq_refl) as [L H]. rewrite app_length. simpl. split; [lia|]. intros j Hj.
      destruct (Nat.eq_dec j n) as [->|N]; [rewrite nth_error_app2 by lia; rewrite L, Nat.sub_diag; auto|].
      rewrite nth_error_app1 by lia. apply H. lia.
    + intros [L H]. destruct (@exists_last _ v) as (u & a & E); [intro X; subst v; discriminate|]. subst v. rewrite app_length in L. simpl in L.
      assert (G : g = Some u).
      { apply IH. split; [lia|]. intros j Hj. rewrite H by lia. rewrite nth_error_app1 by lia. auto. }
      rewrite G. rewrite H by lia. rewrite nth_error_app2 by lia. replace (n - length u) with 0 by lia. reflexivity.
Qed.

Lemma in_colrows : forall m j i, j < wJ m -> (In i (colrows m (wI m) j) <-> link m i j /\ i <> 0).
Proof.
  intros m j i Hj. unfold colrows. rewrite filter_In, in_seq, andb_true_iff, negb_true_iff, Nat.eqb_neq, nz_true. unfold link, inr.
  intuition lia.
Qed.
Lemma colrows_nodup : forall m n j, NoDup (colrows m n j).
Proof. intros. apply NoDup_filter, seq_NoDup. Qed.

(** what getAligVec really returns *)
Theorem getAligVec_spec : forall m v, getAligVec m = Some v <->
  length v = wJ m /\ forall j, j < wJ m -> exists a, nth_error v j = Some a /\
    (forall i, i <> 0 -> (link m i j <-> i = a)).
Proof.
  intros m v. rewrite getAligVec_cols. split; intros [L H]; (split; [auto|]); intros j Hj; specialize (H j Hj).
  - rewrite get_col_spec in H. pose proof (fun i => in_colrows m j i Hj) as I. destruct (colrows m (wI m) j) as [|a [|b l]] eqn:E.
    + exists 0. split; auto. intros i Hi. split; intro K; [|congruence]. exfalso. apply (in_nil (a := i)). apply I. auto.
    + exists a. split; auto. intros i Hi. split; intro K; [|subst i].
      * assert (In i [a]) as [X|[]] by (apply I; auto); auto.
      * apply (I a). now left.
    + exfalso. assert (j < length v) by lia. apply nth_error_Some in H0. rewrite <- H in H0. congruence.
  - destruct H as (a & E & K). rewrite E, get_col_spec.
    pose proof (fun i => in_colrows m j i Hj) as I. pose proof (colrows_nodup m (wI m) j) as ND. destruct (colrows m (wI m) j) as [|x [|y l]] eqn:EC.
    + destruct (Nat.eq_dec a 0) as [->|N]; auto. exfalso. apply (in_nil (a := a)). apply I. split; auto. now apply K.
    + f_equal. destruct (proj1 (I x) (or_introl eq_refl)) as [X1 X2]. now apply K.
    + exfalso. destruct (proj1 (I x) (or_introl eq_refl)) as [X1 X2]. destruct (proj1 (I y) (or_intror (or_introl eq_refl))) as [Y1 Y2].
      apply K in X1, Y1; auto. subst. inversion ND; subst. apply H1. now left.
Qed.

(** put into a fresh matrix, then get: every value comes back reduced by one *)
Theorem put_get : forall I J v, length v = J -> (forall a, In a v -> a <= I) ->
  exists r, putAligVec (w_init I J) v = Some r /\ getAligVec r = Some (map pred v).
Proof.
  intros I J v L A. destruct (putAligVec_spec (w_init I J) v) as (r & E & [D1 D2] & K); auto.
  exists r. split; auto. apply getAligVec_spec. simpl in D1, D2. rewrite map_length, D2. split; auto. intros j Hj.
  destruct (nth_error v j) as [a|] eqn:Ea; [|apply nth_error_None in Ea; lia].
  exists (pred a). split; [now rewrite nth_error_map, Ea|]. intros i Hi. rewrite K. unfold link at 1. simpl.
  rewrite Ea. split.
  - intros [[_ X]|X]; [exfalso; now apply X|]. inversion X; auto.
  - intros ->. right. f_equal. lia.
Qed.

(** ** growDiagFinal in two phases *)
Lemma in_adjacent_iff : forall m i j i' j', In (i', j') (obtainAdjacentCells m i j) <-> adjacent i j i' j' /\ i' < wI m /\ j' < wJ m.
Proof.
  intros m i j i' j'. unfold obtainAdjacentCells, adjacent. rewrite in_flat_map. split.
  - intros (di & Di & H). apply in_flat_map in H. destruct H as (dj & Dj & H).
    destruct (negb (di =? 0)%Z || negb (dj =? 0)%Z) eqn:NZ; [|destruct H]. cbv zeta in H.
    destruct ((Z.of_nat i + di <? Z.of_nat (wI m))%Z && (Z.of_nat j + dj <? Z.of_nat (wJ m))%Z && (0 <=? Z.of_nat i + di)%Z && (0 <=? Z.of_nat j + dj)%Z) eqn:E; [|destruct H].
    destruct H as [H|[]]. inversion H; subst. rewrite !andb_true_iff, !Z.ltb_lt, !Z.leb_le in E.
    rewrite orb_true_iff, !negb_true_iff, !Z.eqb_neq in NZ.
    simpl in Di, Dj. lia.
  - intros ((A1 & A2 & A3 & A4 & A5) & B1 & B2).
    exists (Z.of_nat i' - Z.of_nat i)%Z. split; [simpl; lia|]. apply in_flat_map. exists (Z.of_nat j' - Z.of_nat j)%Z. split; [simpl; lia|].
    replace (negb (Z.of_nat i' - Z.of_nat i =? 0)%Z || negb (Z.of_nat j' - Z.of_nat j =? 0)%Z) with true
      by (symmetry; rewrite orb_true_iff, !negb_true_iff, !Z.eqb_neq; lia).
    cbv zeta. replace (Z.of_nat i + (Z.of_nat i' - Z.of_nat i))%Z with (Z.of_nat i') by lia.
    replace (Z.of_nat j + (Z.of_nat j' - Z.of_nat j))%Z with (Z.of_nat j') by lia.
    replace ((Z.of_nat i' <? Z.of_nat (wI m))%Z && (Z.of_nat j' <? Z.of_nat (wJ m))%Z && (0 <=? Z.of_nat i')%Z && (0 <=? Z.of_nat j')%Z) with true
      by (symmetry; rewrite !andb_true_iff, !Z.ltb_lt, !Z.leb_le; lia).
    left. now rewrite !Nat2Z.id.
Qed.

Lemma add_step_id : forall other m i j, inr m i j -> same_dims m other -> add_step other m (i, j) = m -> link other i j -> row_aligned m i /\ col_aligned m j.
Proof.
  intros other m i j R D E L. destruct R as [Hi Hj]. unfold add_step in E.
  destruct (iAligned m i) eqn:AI, (jAligned m j) eqn:AJ; cbn [negb orb andb] in E.
  - split; [now apply iAligned_true|now apply jAligned_true].
  - exfalso. destruct L as [_ L]. rewrite (proj2 (nz_true _) L) in E. unfold w_set, w_setValue in E.
    rewrite (proj2 (Nat.ltb_lt _ _) Hi), (proj2 (Nat.ltb_lt _ _) Hj) in E. cbn [andb] in E.
    apply (wput_id m i j); auto; [split; auto|]. destruct (N.eq_dec (wc m i j) 0) as [|N]; auto. exfalso.
    assert (jAligned m j = true); [|congruence]. apply jAligned_true; auto. exists i. split; auto. split; auto.
  - exfalso. destruct L as [_ L]. rewrite (proj2 (nz_true _) L) in E. unfold w_set, w_setValue in E.
    rewrite (proj2 (Nat.ltb_lt _ _) Hi), (proj2 (Nat.ltb_lt _ _) Hj) in E. cbn [andb] in E.
    apply (wput_id m i j); auto; [split; auto|]. destruct (N.eq_dec (wc m i j) 0) as [|N]; auto. exfalso.
    assert (iAligned m i = true); [|congruence]. apply iAligned_true; auto. exists j. split; auto. split; auto.
  - exfalso. destruct L as [_ L]. rewrite (proj2 (nz_true _) L) in E. unfold w_set, w_setValue in E.
    rewrite (proj2 (Nat.ltb_lt _ _) Hi), (proj2 (Nat.ltb_lt _ _) Hj) in E. cbn [andb] in E.
    apply (wput_id m i j); auto; [split; auto|]. destruct (N.eq_dec (wc m i j) 0) as [|N]; auto. exfalso.
    assert (iAligned m i = true); [|congruence]. apply iAligned_true; auto. exists j. split; auto. split; auto.
Qed.

Lemma final_new : forall other g cs q, same_dims q other -> (forall c, In c cs -> In c (cells (wI q) (wJ q))) ->
  (forall i j, link g i j -> link q i j) ->
  forall i j, link (fold_left (add_step other) cs q) i j -> link q i j \/ ((~ row_aligned g i \/ ~ col_aligned g j) /\ link other i j).
Proof.
  induction cs as [|[a b] cs IH]; intros q D Hcs M i j L; [auto|]. cbn [fold_left] in L.
  assert (Hab : In (a, b) (cells (wI q) (wJ q))) by (apply Hcs; now left).
  pose proof (add_step_grows other q (a, b) D Hab) as G. destruct G as ((D1 & D2) & _ & _ & G1 & G2).
  apply IH in L.
  - destruct L as [L|L]; auto. clear IH. apply in_cells in Hab. unfold add_step in L.
    destruct (negb (iAligned q a) || negb (jAligned q b)) eqn:A; cbn [andb] in L; auto.
    destruct (nz (wc other a b)) eqn:E; auto. unfold w_set, w_setValue in L. destruct Hab as [Ha Hb].
    rewrite (proj2 (Nat.ltb_lt _ _) Ha), (proj2 (Nat.ltb_lt _ _) Hb) in L. cbn [andb] in L.
    destruct (Nat.eq_dec i a) as [->|N1]; [destruct (Nat.eq_dec j b) as [->|N2]|];
    try (left; destruct L as [R N]; rewrite wput_other in N by congruence; split; auto; fail).
    right. split; [|apply link_nz; auto; destruct D; split; congruence].
    rewrite orb_true_iff, !negb_true_iff in A. destruct A as [A|A]; [left|right]; intros [x X].
    + apply M in X. assert (iAligned q a = true); [|congruence]. apply iAligned_true; auto. exists x; auto.
    + apply M in X. assert (jAligned q b = true); [|congruence]. apply jAligned_true; auto. exists x; auto.
  - destruct D; split; congruence.
  - intros c Hc. rewrite <- D1, <- D2. apply Hcs. now right.
  - auto.
Qed.

Theorem growDiagFinal_phases : forall m w r, same_dims m w -> growDiagFinal m w = Some r -> exists g, same_dims g m /\
  (forall i j, link m i j /\ link w i j -> link g i j) /\
  (forall i j i' j', link g i j -> adjacent i j i' j' -> (link m i' j' \/ link w i' j') -> row_aligned g i' /\ col_aligned g j') /\
  (forall i j, link g i j -> link r i j) /\
  (forall i j, link r i j -> link g i j \/ ~ row_aligned g i \/ ~ col_aligned g j).
Proof.
  intros m w r D ER. unfold growDiagFinal in ER. rewrite (proj2 (dims_eqb_true m w) D) in ER. cbv zeta in ER.
  destruct (and_spec m w D) as [[AI AJ] _]. destruct (or_spec m w D) as [[OI OJ] _].
  set (join := w_or m w) in *. set (pass := for_ij (wI m) (wJ m) (grow_step join)) in *.
  assert (GF : forall q, wI q = wI m -> wJ q = wJ m -> grows (union_of m w) q (pass q) /\ (cnt (pass q) = cnt q -> forall c, In c (cells (wI m) (wJ m)) -> grow_step join q c = q)).
  { intros q EI EJ. unfold pass, for_ij. eapply grow_fold with (I := wI m) (J := wJ m); auto.
    intros q' c Hc EI' EJ'. eapply grows_mono; [|apply grow_step_grows; [split; congruence|now rewrite EI', EJ']].
    intros i j L. apply (set_ops_links m w D i j) in L. exact L. }
  destruct (grow_loop_ok (union_of m w) pass (wI m) (wJ m)) with (fuel := fuel_for m) (m := w_and m w) as (g & E & G & FX); auto.
  { intros; apply GF; auto. } { unfold fuel_for. lia. }
  rewrite E in ER. assert (DG : same_dims g m) by (destruct G as ((?&?)&_); split; congruence).
  exists g. split; auto. destruct (between m w g D G) as (_ & B1 & _). split; auto.
  assert (F : forall c, In c (cells (wI m) (wJ m)) -> grow_step join g c = g).
  { apply GF; try apply DG. now rewrite FX. }
  split.
  { intros i j i' j' L AD UL. specialize (F (i, j)). rewrite in_cells in F. 
    assert (Rg : inr m i j) by (apply (inr_dims _ _ i j DG); eapply link_inr; eauto). specialize (F Rg).
    unfold grow_step in F. destruct L as [RL NL]. rewrite (proj2 (nz_true _) NL) in F.
    assert (R' : inr g i' j').
    { apply (inr_dims _ _ i' j' DG). destruct UL as [X|X]; [eapply link_inr; eauto|apply (inr_dims _ _ i' j' D); eapply link_inr; eauto]. }
    assert (DJ : same_dims g join) by (destruct DG; split; congruence).
    destruct (grow_fold (link join) (add_step join) (wI g) (wJ g) (obtainAdjacentCells g i j) g) as [_ K]; auto.
    { intros q [a b] H EI EJ. apply add_step_grows; [destruct DJ; split; congruence|]. rewrite EI, EJ. apply in_cells. eapply in_adjacent; eauto. }
    rewrite F in K. specialize (K eq_refl (i', j')). rewrite in_adjacent_iff in K. specialize (K (conj AD R')).
    apply (add_step_id join g i' j'); auto. apply (set_ops_links m w D i' j'). auto. }
  inversion ER; subst r. clear ER.
  pose proof (final_pass m g DG) as [F1 _]. replace (wI g) with (wI m) in * by (destruct DG; congruence). replace (wJ g) with (wJ m) in * by (destruct DG; congruence).
  pose proof (final_new m g (cells (wI m) (wJ m)) g DG) as N1.
  change (fold_left (add_step m) (cells (wI m) (wJ m)) g) with (for_ij (wI m) (wJ m) (add_step m) g) in N1.
  set (s := for_ij (wI m) (wJ m) (add_step m) g) in *.
  assert (DS : same_dims s w) by (destruct F1 as ((?&?)&_); destruct DG, D; split; congruence).
  pose proof (final_pass w s DS) as [F2 _].
  pose proof (final_new w g (cells (wI m) (wJ m)) s DS) as N2.
  replace (wI s) with (wI m) in * by (destruct DS, D; congruence). replace (wJ s) with (wJ m) in * by (destruct DS, D; congruence).
  replace (wI g) with (wI m) in * by (destruct DG; congruence). replace (wJ g) with (wJ m) in * by (destruct DG; congruence).
  change (fold_left (add_step w) (cells (wI m) (wJ m)) s) with (for_ij (wI m) (wJ m) (add_step w) s) in N2.
  destruct F1 as (_ & _ & _ & M1 & _). destruct F2 as (_ & _ & _ & M2 & _).
  split; [auto|]. intros i j L. apply N2 in L; auto. destruct L as [L|L]; [|tauto]. apply N1 in L; auto. tauto.
Qed.
Lemma putAligVec_len : forall m v, length v <> wJ m -> putAligVec m v = Some m.
Proof. intros m v H. unfold putAligVec. now rewrite (proj2 (Nat.eqb_neq _ _) H). Qed.

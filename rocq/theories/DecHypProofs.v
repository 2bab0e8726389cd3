(** Hypotheses built from a list of translated segments. *)
From Coq Require Import Ascii String Arith List Bool Lia.
From Verif Require Import DecSpec DecModel DecGapProofs.
Import ListNotations.
Open Scope nat_scope.

Notation tlen ps := (length (flat_map snd ps)).
Lemma usub_ok : forall a b, b <= a -> usub a b = a - b.
Proof. intros. unfold usub. destruct (Nat.leb_spec b a); lia. Qed.
Lemma lens_app : forall A (a b : list (seg * list A)) n, lens n (a ++ b) = lens n a ++ lens (n + tlen a) b.
Proof.
  induction a as [|p a IH]; intros b n; simpl; [now rewrite Nat.add_0_r|]. rewrite IH, app_length. do 3 f_equal. lia.
Qed.
Lemma lens_length : forall A (a : list (seg * list A)) n, length (lens n a) = length a.
Proof. induction a as [|p a IH]; intro n; simpl; [reflexivity|]. now rewrite IH. Qed.
Lemma lens_nth : forall A (a b : list (seg * list A)) p n, nth_error (lens n (a ++ p :: b)) (length a) = Some (n + tlen a + length (snd p)).
Proof.
  intros. rewrite lens_app, nth_error_app2 by (rewrite lens_length; lia). rewrite lens_length, Nat.sub_diag. reflexivity.
Qed.
(** the end of the previous segment *)
Lemma lens_prev : forall A (a b : list (seg * list A)),
  (if length a =? 0 then Some 0 else nth_error (lens 0 (a ++ b)) (length a - 1)) = Some (tlen a).
Proof.
  intros A a b. destruct a as [|x a] using rev_ind; [reflexivity|].
  rewrite app_length. cbn [length]. destruct (Nat.eqb_spec (length a + 1) 0); [lia|].
  replace (length a + 1 - 1) with (length a) by lia. rewrite <- app_assoc. cbn [app]. rewrite lens_nth.
  rewrite flat_map_app, app_length. simpl. now rewrite app_nil_r.
Qed.
Theorem extend_hyp_of : forall l r phr ps, extendHypDataIdx l r phr (hyp_of ps) = hyp_of (ps ++ [((l, r), phr)]).
Proof.
  intros. unfold extendHypDataIdx, hyp_of. cbn [ntarget segs cuts]. f_equal.
  - rewrite flat_map_app. simpl. now rewrite app_nil_r.
  - now rewrite map_app.
  - rewrite lens_app. simpl. rewrite usub_ok by lia. rewrite app_length. do 2 f_equal. lia.
Qed.
Lemma hyp_of_null : nullHypothesisHypData = hyp_of [].
Proof. reflexivity. Qed.

(** ** predecessor *)
Theorem pred_hyp_of : forall ps s phr, tlen (ps ++ [(s, phr)]) <> 0 ->
  obtainPredecessorHypData (hyp_of (ps ++ [(s, phr)])) = Some (true, hyp_of ps).
Proof.
  intros ps s phr NE. unfold obtainPredecessorHypData, hyp_of. cbn [ntarget segs cuts length].
  set (t := flat_map snd (ps ++ [(s, phr)])) in *.
  assert (T : t = flat_map snd ps ++ phr) by (unfold t; rewrite flat_map_app; simpl; now rewrite app_nil_r).
  destruct (Nat.leb_spec (S (length t)) 1); [lia|]. rewrite lens_length, app_length. cbn [length].
  destruct (Nat.eqb_spec (length ps + 1) 0); [lia|].
  assert (I : (if length ps + 1 =? 1 then nth_error (lens 0 (ps ++ [(s, phr)])) 0
     else match nth_error (lens 0 (ps ++ [(s, phr)])) (length ps + 1 - 1) with
          | Some a => match nth_error (lens 0 (ps ++ [(s, phr)])) (length ps + 1 - 2) with Some b => Some (usub a b) | None => None end
          | None => None end) = Some (length phr)).
  { replace (length ps + 1 - 1) with (length ps) by lia. rewrite lens_nth. cbn [snd].
    pose proof (lens_prev _ ps [(s, phr)]) as P.
    destruct (Nat.eqb_spec (length ps + 1) 1) as [E|E].
    - destruct ps; [|simpl in E; lia]. reflexivity.
    - destruct (Nat.eqb_spec (length ps) 0); [lia|]. replace (length ps + 1 - 2) with (length ps - 1) by lia. rewrite P.
      rewrite usub_ok by lia. f_equal. lia. }
  rewrite I. rewrite map_length, app_length. cbn [length]. destruct (Nat.eqb_spec (length ps + 1) 0); [lia|].
  assert (L : length t = tlen ps + length phr) by (rewrite T, app_length; reflexivity).
  destruct (Nat.leb_spec (length phr) (S (length t))); [|lia]. cbn [andb negb]. do 3 f_equal.
  - replace (S (length t) - length phr) with (S (tlen ps)) by lia. cbn [firstn]. rewrite T. f_equal.
    rewrite firstn_app, Nat.sub_diag, firstn_O, app_nil_r. apply firstn_all.
  - rewrite map_app. simpl. apply removelast_last.
  - rewrite lens_app. simpl. apply removelast_last.
Qed.
Theorem pred_hyp_of_empty : forall ps, tlen ps = 0 -> obtainPredecessorHypData (hyp_of ps) = Some (false, hyp_of ps).
Proof. intros ps E. unfold obtainPredecessorHypData. cbn [hyp_of ntarget length]. now rewrite E. Qed.

(** ** phrase of a segment *)
Lemma seg_eqb_eq : forall a b, seg_eqb a b = true <-> a = b.
Proof.
  intros [a b] [c d]. unfold seg_eqb. cbn [fst snd]. rewrite andb_true_iff, !Nat.eqb_eq. split; [intros [-> ->]; reflexivity|]. intro E. now inversion E.
Qed.
Lemma find_last_none : forall s ss i k, ~ In s ss -> find_last s i ss k = k.
Proof.
  induction ss as [|t ss IH]; intros i k N; [reflexivity|]. simpl. destruct (seg_eqb s t) eqn:E.
  - apply seg_eqb_eq in E. subst. exfalso. apply N. now left.
  - apply IH. intro. apply N. now right.
Qed.
Lemma find_last_app : forall s a b i k, find_last s i (a ++ b) k = find_last s (i + length a) b (find_last s i a k).
Proof. induction a as [|t a IH]; intros b i k; simpl; [now rewrite Nat.add_0_r|]. rewrite IH. f_equal. lia. Qed.
Lemma slice_mid : forall A (b a c : list A), slice (a ++ b ++ c) (length a) (length b) = Some b.
Proof.
  induction b as [|x b IH]; intros a c; [reflexivity|]. cbn [length slice app].
  rewrite nth_error_app2, Nat.sub_diag by lia. cbn [nth_error].
  replace (a ++ x :: b ++ c) with ((a ++ [x]) ++ b ++ c) by (now rewrite <- app_assoc).
  replace (S (length a)) with (length (a ++ [x])) by (rewrite app_length; simpl; lia). now rewrite IH.
Qed.
Theorem phrase_of_seg : forall ps1 s phr ps2, ~ In s (map fst ps2) ->
  getTrgTransForSrcPhr (hyp_of (ps1 ++ (s, phr) :: ps2)) s = Some phr.
Proof.
  intros ps1 s phr ps2 N. unfold getTrgTransForSrcPhr. cbn [hyp_of segs cuts ntarget].
  rewrite map_app, find_last_app. cbn [map fst find_last]. rewrite (proj2 (seg_eqb_eq s s) eq_refl), find_last_none by assumption.
  rewrite map_length, Nat.add_0_l. rewrite lens_nth.
  assert (P : (if 0 <? length ps1 then nth_error (lens 0 (ps1 ++ (s, phr) :: ps2)) (length ps1 - 1) else Some 0) = Some (tlen ps1)).
  { pose proof (lens_prev _ ps1 ((s, phr) :: ps2)) as P. destruct ps1; [reflexivity|]. exact P. }
  rewrite P. cbn [snd]. replace (0 + tlen ps1 + length phr - tlen ps1) with (length phr) by lia.
  rewrite flat_map_app. cbn [flat_map snd]. change (S (tlen ps1)) with (length (0 :: flat_map snd ps1)). rewrite app_comm_cons. apply slice_mid.
Qed.
Theorem phrase_of_absent : forall h s, ~ In s (segs h) -> getTrgTransForSrcPhr h s = Some [].
Proof. intros. unfold getTrgTransForSrcPhr. now rewrite find_last_none. Qed.

(** ** alignment *)
(** source position j belongs to a segment whose phrase holds target position i (from 1) *)
Definition linked (ps : list (seg * list nat)) (j i : nat) : Prop :=
  exists a p b, ps = a ++ p :: b /\ in_seg (fst p) j /\ tlen a < i <= tlen a + length (snd p).
Lemma aligned_loop : forall (b a : list (seg * list nat)) j i,
  exists v, areAligned_loop (length a) (map fst b) (lens 0 (a ++ b)) j i = Some v /\
  (v = true <-> exists b1 p b2, b = b1 ++ p :: b2 /\ in_seg (fst p) j /\ tlen (a ++ b1) < i <= tlen (a ++ b1) + length (snd p)).
Proof.
  induction b as [|p b IH]; intros a j i.
  - exists false. split; [reflexivity|]. split; [discriminate|]. intros ([|? ?] & q & b2 & E & _); discriminate.
  - cbn [map areAligned_loop]. specialize (IH (a ++ [p]) j i). rewrite <- app_assoc in IH. cbn [app] in IH.
    rewrite app_length in IH. cbn [length] in IH. replace (length a + 1) with (S (length a)) in IH by lia.
    destruct IH as (v & E & V).
    assert (Q : (exists b1 p0 b2, b = b1 ++ p0 :: b2 /\ in_seg (fst p0) j /\ tlen ((a ++ [p]) ++ b1) < i <= tlen ((a ++ [p]) ++ b1) + length (snd p0)) ->
                exists b1 p0 b2, p :: b = b1 ++ p0 :: b2 /\ in_seg (fst p0) j /\ tlen (a ++ b1) < i <= tlen (a ++ b1) + length (snd p0)).
    { intros (b1 & q & b2 & -> & I & R). exists (p :: b1), q, b2. split; [reflexivity|]. split; [assumption|]. now rewrite <- app_assoc in R. }
    assert (Q' : forall b1 p0 b2, p :: b = b1 ++ p0 :: b2 -> in_seg (fst p0) j -> tlen (a ++ b1) < i <= tlen (a ++ b1) + length (snd p0) ->
                 (in_seg (fst p) j /\ tlen a < i <= tlen a + length (snd p)) \/ v = true).
    { intros b1 q b2 E1 I R. destruct b1 as [|p' b1].
      - injection E1 as <- ->. left. rewrite app_nil_r in R. auto.
      - injection E1 as <- ->. right. apply V. exists b1, q, b2. split; [reflexivity|]. split; [assumption|]. now rewrite <- app_assoc. }
    destruct ((fst (fst p) <=? j) && (j <=? snd (fst p))) eqn:I.
    + apply andb_true_iff in I. destruct I as [I1 I2]. apply Nat.leb_le in I1, I2.
      rewrite lens_prev, lens_nth. rewrite Nat.add_0_l.
      destruct ((tlen a + 1 <=? i) && (i <=? tlen a + length (snd p))) eqn:R.
      * exists true. split; [reflexivity|]. split; [intros _|reflexivity]. apply andb_true_iff in R. destruct R as [R1 R2].
        apply Nat.leb_le in R1, R2. exists [], p, b. split; [reflexivity|]. split; [now split|]. rewrite app_nil_r. lia.
      * exists v. split; [assumption|]. split; [intro Hv; apply Q; now apply V|]. intros (b1 & q & b2 & E1 & I & R').
        destruct (Q' _ _ _ E1 I R') as [[_ R'']|]; [|assumption]. apply andb_false_iff in R. rewrite !Nat.leb_gt in R. lia.
    + exists v. split; [assumption|]. split; [intro Hv; apply Q; now apply V|]. intros (b1 & q & b2 & E1 & I' & R').
      destruct (Q' _ _ _ E1 I' R') as [[I'' _]|]; [|assumption]. apply andb_false_iff in I. rewrite !Nat.leb_gt in I. unfold in_seg in I''. lia.
Qed.
Theorem areAligned_spec : forall ps j i, exists v, areAligned (hyp_of ps) j i = Some v /\ (v = true <-> linked ps j i).
Proof.
  intros. destruct (aligned_loop ps [] j i) as (v & E & V). exists v. split; [exact E|]. rewrite V. reflexivity.
Qed.
(** a target position determines the segment it belongs to *)
Lemma linked_at : forall a p b j i, i < length (snd p) -> (linked (a ++ p :: b) j (tlen a + i + 1) <-> in_seg (fst p) j).
Proof.
  intros a p b j i I. split; [|intro S; exists a, p, b; split; [reflexivity|]; split; [assumption|lia]].
  intros (a' & q & b' & E & S & R).
  assert (H : forall (x y : list (seg * list nat)) u v z w, x ++ u :: v = y ++ z :: w -> length x < length y -> tlen x + length (snd u) <= tlen y).
  { clear. induction x as [|h x IH]; intros y u v z w E L; (destruct y as [|k y]; [simpl in L; lia|]); simpl in E.
    - injection E as <- _. simpl. rewrite app_length. lia.
    - injection E as <- E. simpl. rewrite !app_length. specialize (IH _ _ _ _ _ E). simpl in L. lia. }
  destruct (lt_eq_lt_dec (length a) (length a')) as [[L|L]|L].
  - specialize (H _ _ _ _ _ _ E L). lia.
  - assert (a = a' /\ p :: b = q :: b') as (-> & E2).
    { clear -E L. revert a' E L. induction a as [|x a IH]; intros [|y a'] E L; simpl in *; try lia; [auto|]. injection E as <- E.
      destruct (IH a' E ltac:(lia)) as (-> & ->). auto. }
    injection E2 as <- _. assumption.
  - symmetry in E. specialize (H _ _ _ _ _ _ E L). lia.
Qed.

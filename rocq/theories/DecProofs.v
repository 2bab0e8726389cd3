(** Text of hypotheses, constraints, and expansion. *)
From Coq Require Import Ascii String Arith List Bool Lia Sorted.
From Verif Require Import DecSpec DecModel DecGapProofs DecHypProofs.
Import ListNotations.
Open Scope nat_scope.

Lemma str_eqb_eq : forall a b, str_eqb a b = true <-> a = b.
Proof. intros. unfold str_eqb. destruct (str_dec a b); intuition congruence. Qed.
Lemma affected_spec : forall cs l r, l <= r -> Forall (fun c => fst (fst c) <= snd (fst c)) cs ->
  (srcPhrAffectedByConstraint cs (l, r) = true <-> exists c, In c cs /\ overlaps (fst c) (l, r)).
Proof.
  intros cs l r L F. unfold srcPhrAffectedByConstraint. rewrite existsb_exists. rewrite Forall_forall in F.
  split; intros (c & C & H); exists c; (split; [assumption|]).
  - apply andb_true_iff in H. destruct H as [H1 H2]. apply Nat.leb_le in H1, H2. cbn [fst snd] in *. specialize (F c C).
    exists (Nat.max l (fst (fst c))). unfold in_seg. cbn [fst snd]. lia.
  - destruct H as (j & J1 & J2). unfold in_seg in *. cbn [fst snd] in *. apply andb_true_iff. rewrite !Nat.leb_le. lia.
Qed.
Lemma disj_unique : forall (cs : constraints) c d, ForallOrdPairs disjoint (map fst cs) -> In c cs -> In d cs -> overlaps (fst c) (fst d) -> c = d.
Proof.
  induction cs as [|x cs IH]; intros c d D C E O; [inversion C|]. inversion D; subst. rewrite Forall_forall in H1.
  destruct C as [->|C], E as [->|E]; auto.
  - exfalso. destruct O as (j & O). apply (H1 (fst d)) with (j := j); [now apply in_map|exact O].
  - exfalso. destruct O as (j & O1 & O2). apply (H1 (fst c)) with (j := j); [now apply in_map|now split].
Qed.
Lemma trans_of : forall cs c, ForallOrdPairs disjoint (map fst cs) -> In c cs -> fst (fst c) <= snd (fst c) ->
  getTransForSrcPhr cs (fst c) = snd c.
Proof.
  intros cs c D C L. unfold getTransForSrcPhr. destruct (find (fun c0 => seg_eqb (fst c0) (fst c)) cs) as [d|] eqn:F.
  - apply find_some in F. destruct F as (F1 & F2). apply seg_eqb_eq in F2. f_equal. symmetry.
    apply (disj_unique cs); auto. rewrite F2. exists (fst (fst c)). unfold in_seg. lia.
  - exfalso. apply (find_none _ _ F) in C. rewrite (proj2 (seg_eqb_eq (fst c) (fst c)) eq_refl) in C. discriminate.
Qed.
Lemma trans_of_none : forall cs s, ~ In s (map fst cs) -> getTransForSrcPhr cs s = [].
Proof.
  intros cs s N. unfold getTransForSrcPhr. destruct (find (fun c0 => seg_eqb (fst c0) s) cs) as [d|] eqn:F; [|reflexivity].
  apply find_some in F. destruct F as (F1 & F2). apply seg_eqb_eq in F2. subst. exfalso. apply N. now apply in_map.
Qed.
Lemma fop_snoc : forall A (R : A -> A -> Prop) l x, ForallOrdPairs R l -> Forall (fun y => R y x) l -> ForallOrdPairs R (l ++ [x]).
Proof.
  induction l as [|y l IH]; intros x F G; simpl.
  - constructor; constructor.
  - inversion F; subst. inversion G; subst. constructor; [apply Forall_app; split; [assumption|now constructor]|now apply IH].
Qed.

Section P.
Variable srcSent : list str.
Variable cm : constraints.
Variable itos : nat -> str.
Variable stoi : str -> nat.
Variable UNK : nat.
Variable UNKS : str.
Variable unseen : str -> bool.
Variable nbest : nat -> nat -> list (list nat).
Variables A U : nat.
Local Notation n := (length srcSent).
Hypothesis GC : good_constraints n cm.
Hypothesis V : forall c t, In c cm -> In t (snd c) -> itos (stoi t) = t.
Hypothesis NU : forall c, In c cm -> ~ In UNKS (snd c).
Local Notation ptext := (pair_text srcSent itos UNKS).
Local Notation expd := (expand srcSent cm itos stoi UNK UNKS unseen nbest A U).

Lemma gc_range : forall c, In c cm -> 1 <= fst (fst c) <= snd (fst c) /\ snd (fst c) <= n.
Proof. intros c C. destruct GC as ((F & _) & _). rewrite Forall_forall in F. apply F. now apply in_map. Qed.
Lemma gc_disj : ForallOrdPairs disjoint (map fst cm).
Proof. destruct GC as ((_ & F) & _). exact F. Qed.
Lemma gc_fl : Forall (fun c : seg * list str => fst (fst c) <= snd (fst c)) cm.
Proof. apply Forall_forall. intros c C. pose proof (gc_range c C). lia. Qed.

(** ** text *)
Lemma vset_mid : forall B (pre post : list B) x y, vset (length pre) y (pre ++ x :: post) = Some (pre ++ y :: post).
Proof. induction pre as [|z pre IH]; intros post x y; [reflexivity|]. simpl. now rewrite IH. Qed.
Lemma rep_unk_id : forall mid pre post, rep_unk UNKS (length pre) mid (pre ++ mid ++ post) = Some (pre ++ mid ++ post).
Proof.
  induction mid as [|t mid IH]; intros pre post; [reflexivity|]. cbn [rep_unk app].
  rewrite nth_error_app2, Nat.sub_diag by lia. cbn [nth_error].
  assert (E : rep_unk UNKS (S (length pre)) mid (pre ++ t :: mid ++ post) = Some (pre ++ t :: mid ++ post)).
  { specialize (IH (pre ++ [t]) post). rewrite app_length, <- app_assoc in IH. cbn [length app] in IH. now rewrite Nat.add_1_r in IH. }
  destruct (str_eqb t UNKS); [|exact E]. rewrite vset_mid. exact E.
Qed.
Lemma first_aligned_spec : forall (ps : list (seg * list nat)) j m s, exists o, first_aligned (hyp_of ps) j (seq s m) = Some o /\
  match o with
  | Some i => s <= i < s + m /\ linked ps j (i + 1) /\ forall i', s <= i' < i -> ~ linked ps j (i' + 1)
  | None => True
  end.
Proof.
  intros ps j m. induction m as [|m IH]; intro s; [now exists None|]. cbn [seq first_aligned].
  destruct (areAligned_spec ps j (s + 1)) as (v & E & Hv). rewrite E. destruct v.
  - exists (Some s). split; [reflexivity|]. split; [lia|]. split; [now apply Hv|]. intros i' I. lia.
  - destruct (IH (S s)) as (o & E' & O). exists o. split; [assumption|]. destruct o as [i|]; [|exact I].
    destruct O as (O1 & O2 & O3). split; [lia|]. split; [assumption|]. intros i' I.
    destruct (Nat.eq_dec i' s) as [->|]; [|apply O3; lia]. intro L. apply Hv in L. discriminate.
Qed.
Lemma rep_constraints_id : forall (ps : list (seg * list nat)) todo, respects itos cm ps -> incl todo cm ->
  rep_constraints cm UNKS (hyp_of ps) todo (map itos (flat_map snd ps)) = Some (map itos (flat_map snd ps)).
Proof.
  intros ps todo RS. induction todo as [|c todo IH]; intro IN; [reflexivity|]. cbn [rep_constraints].
  assert (C : In c cm) by (apply IN; now left).
  destruct (first_aligned_spec ps (fst (fst c)) (length (map itos (flat_map snd ps))) 0) as (o & E & O). rewrite E.
  assert (IH' := IH (fun x X => IN x (or_intror X))). destruct o as [i|]; [|exact IH'].
  destruct O as (_ & (a & p & b & EP & S & R) & F).
  pose proof (gc_range c C) as RG.
  destruct (RS c C p) as (E1 & E2); [rewrite EP; apply in_elt| |].
  { exists (fst (fst c)). split; [unfold in_seg; lia|assumption]. }
  assert (i = tlen a).
  { destruct (Nat.eq_dec i (tlen a)); [assumption|]. exfalso. apply (F (tlen a)); [lia|].
    exists a, p, b. split; [assumption|]. split; [assumption|]. lia. }
  subst i. rewrite trans_of by (auto using gc_disj; lia).
  assert (W : map itos (flat_map snd ps) = map itos (flat_map snd a) ++ snd c ++ map itos (flat_map snd b)).
  { rewrite EP, flat_map_app. cbn [flat_map]. now rewrite !map_app, E2. }
  rewrite W in *. replace (tlen a) with (length (map itos (flat_map snd a))) by apply map_length.
  rewrite rep_unk_id. exact IH'.
Qed.
Lemma src_for_spec : forall (a : list (seg * list nat)) (p : seg * list nat) b i, i < length (snd p) -> 1 <= fst (fst p) <= snd (fst p) -> snd (fst p) <= n ->
  forall src j, src = skipn j srcSent -> j <= fst (fst p) - 1 ->
  src_for (hyp_of (a ++ p :: b)) (tlen a + i) j src = Some (Some (nth (fst (fst p) - 1) srcSent [])).
Proof.
  intros a p b i I R1 R2. induction src as [|w src IH]; intros j E J.
  - exfalso. assert (length (skipn j srcSent) = 0) by (now rewrite <- E). rewrite skipn_length in H. lia.
  - cbn [src_for]. destruct (areAligned_spec (a ++ p :: b) (j + 1) (tlen a + i + 1)) as (v & Ev & Hv). rewrite Ev.
    rewrite linked_at in Hv by assumption.
    assert (T : skipn (S j) srcSent = src).
    { assert (forall m (l : list str) x y, skipn m l = x :: y -> skipn (S m) l = y) as Q.
      { clear. induction m as [|m IH]; intros [|z l] x y E; cbn in *; try congruence; eauto. }
      symmetry in E. exact (Q _ _ _ _ E). }
    assert (N : nth j srcSent [] = w).
    { assert (forall m (l : list str) x y, skipn m l = x :: y -> nth m l [] = x) as Q.
      { clear. induction m as [|m IH]; intros [|z l] x y E; cbn in *; try congruence; eauto. }
      symmetry in E. exact (Q _ _ _ _ E). }
    destruct v.
    + assert (S : in_seg (fst p) (j + 1)) by (now apply Hv). unfold in_seg in S. replace (fst (fst p) - 1) with j by lia. now rewrite N.
    + apply IH; [now symmetry|]. destruct (Nat.eq_dec j (fst (fst p) - 1)) as [->|]; [|lia]. exfalso.
      assert (false = true); [|discriminate]. apply (proj2 Hv). unfold in_seg. clear -R1 R2. lia.
Qed.
Lemma rep_src_phrase : forall (a : list (seg * list nat)) (p : seg * list nat) b, 1 <= fst (fst p) <= snd (fst p) -> snd (fst p) <= n -> forall w2 w1 rest, snd p = w1 ++ w2 ->
  rep_src srcSent UNKS (hyp_of (a ++ p :: b)) (tlen a + length w1) (map itos w2 ++ rest) =
  match rep_src srcSent UNKS (hyp_of (a ++ p :: b)) (tlen a + length (snd p)) rest with
  | Some r => Some (map (fun w => if list_eq_dec ascii_dec (itos w) UNKS then nth (fst (fst p) - 1) srcSent [] else itos w) w2 ++ r)
  | None => None
  end.
Proof.
  intros a p b R1 R2. induction w2 as [|w w2 IH]; intros w1 rest E.
  - rewrite app_nil_r in E. rewrite E. cbn [map app]. now destruct (rep_src _ _ _ _ rest).
  - cbn [map app rep_src]. specialize (IH (w1 ++ [w]) rest). rewrite <- app_assoc in IH. specialize (IH E).
    rewrite app_length in IH. cbn [length] in IH. replace (tlen a + (length w1 + 1)) with (S (tlen a + length w1)) in IH by lia. rewrite IH.
    assert (H : (if str_eqb (itos w) UNKS then option_map (fun o => match o with Some s => s | None => itos w end) (src_for (hyp_of (a ++ p :: b)) (tlen a + length w1) 0 srcSent) else Some (itos w))
      = Some (if list_eq_dec ascii_dec (itos w) UNKS then nth (fst (fst p) - 1) srcSent [] else itos w)).
    { unfold str_eqb, str_dec. destruct (list_eq_dec ascii_dec (itos w) UNKS); [|reflexivity].
      rewrite (src_for_spec a p b (length w1)); [reflexivity| |assumption|assumption|reflexivity|lia]. rewrite E, app_length. simpl. lia. }
    rewrite H. now destruct (rep_src _ _ _ _ rest).
Qed.
Lemma rep_src_spec : forall (b a : list (seg * list nat)), Forall (fun s => 1 <= fst s <= snd s /\ snd s <= n) (map fst (a ++ b)) ->
  rep_src srcSent UNKS (hyp_of (a ++ b)) (tlen a) (map itos (flat_map snd b)) = Some (flat_map ptext b).
Proof.
  induction b as [|p b IH]; intros a F; [reflexivity|]. cbn [flat_map]. rewrite map_app.
  assert (R : 1 <= fst (fst p) <= snd (fst p) /\ snd (fst p) <= n).
  { rewrite Forall_forall in F. apply F, in_map, in_elt. }
  pose proof (rep_src_phrase a p b (proj1 R) (proj2 R) (snd p) [] (map itos (flat_map snd b)) eq_refl) as H.
  cbn [length] in H. rewrite Nat.add_0_r in H. rewrite H.
  specialize (IH (a ++ [p])). rewrite <- app_assoc in IH. cbn [app] in IH. specialize (IH F).
  rewrite flat_map_app, app_length in IH. cbn [flat_map] in IH. rewrite app_nil_r in IH. now rewrite IH.
Qed.
Theorem text_spec : forall (ps : list (seg * list nat)), Forall (fun s => 1 <= fst s <= snd s /\ snd s <= n) (map fst ps) -> respects itos cm ps ->
  getTransInPlainTextVec srcSent cm itos UNKS (hyp_of ps) = Some (flat_map ptext ps).
Proof.
  intros ps F R. unfold getTransInPlainTextVec. change (tl (ntarget (hyp_of ps))) with (flat_map snd ps).
  rewrite (rep_constraints_id ps cm R (fun x X => X)). exact (rep_src_spec ps [] F).
Qed.

(** ** the check of constraints *)
Lemma related_spec : forall B c1 (b a : list (seg * list B)), exists o, related_loop (length a) c1 (map fst b) (lens 0 (a ++ b)) = Some o /\
  match o with
  | None => forall p, In p b -> ~ in_seg (fst p) c1
  | Some (s, (lo, hi)) => exists b1 p b2, b = b1 ++ p :: b2 /\ in_seg (fst p) c1 /\ s = fst p /\ lo = S (tlen (a ++ b1)) /\ hi = tlen (a ++ b1) + length (snd p)
  end.
Proof.
  intros B c1. induction b as [|p b IH]; intro a.
  - exists None. split; [reflexivity|]. intros p [].
  - cbn [map related_loop]. destruct ((fst (fst p) <=? c1) && (c1 <=? snd (fst p))) eqn:I.
    + apply andb_true_iff in I. destruct I as [I1 I2]. apply Nat.leb_le in I1, I2. rewrite lens_nth, Nat.add_0_l.
      exists (Some (fst p, (S (tlen a), tlen a + length (snd p)))). split.
      * pose proof (lens_prev _ a (p :: b)) as P. destruct (Nat.eqb_spec (length a) 0) as [E|E].
        -- injection P as P. now rewrite <- P.
        -- now rewrite P.
      * exists [], p, b. rewrite app_nil_r. repeat split; auto.
    + specialize (IH (a ++ [p])). rewrite app_length, <- app_assoc in IH. cbn [length app] in IH. rewrite Nat.add_1_r in IH.
      destruct IH as (o & E & O). exists o. split; [assumption|]. destruct o as [[s [lo hi]]|].
      * destruct O as (b1 & q & b2 & -> & I' & -> & -> & ->). exists (p :: b1), q, b2. rewrite <- app_assoc. repeat split; auto; apply I'.
      * intros q [<-|Q]; [|now apply O]. unfold in_seg. apply andb_false_iff in I. rewrite !Nat.leb_gt in I. lia.
Qed.
Lemma cmp_ok : forall mid pre post, cmp_loop mid (pre ++ mid ++ post) (length pre) = Some false.
Proof.
  induction mid as [|t mid IH]; intros pre post; [reflexivity|]. cbn [cmp_loop app].
  rewrite nth_error_app2, Nat.sub_diag by lia. cbn [nth_error]. rewrite (proj2 (str_eqb_eq t t) eq_refl).
  specialize (IH (pre ++ [t]) post). rewrite app_length, <- app_assoc in IH. cbn [length app] in IH. now rewrite Nat.add_1_r in IH.
Qed.
Lemma ptext_len : forall (ps : list (seg * list nat)), length (flat_map ptext ps) = tlen ps.
Proof. induction ps as [|p ps IH]; [reflexivity|]. cbn [flat_map]. rewrite !app_length, IH. unfold pair_text. now rewrite map_length. Qed.
Theorem satisfied : forall (ps : list (seg * list nat)), respects itos cm ps ->
  translationSatisfiesConstraints cm (segs (hyp_of ps)) (cuts (hyp_of ps)) (flat_map ptext ps) = Some true.
Proof.
  intros ps RS. unfold translationSatisfiesConstraints. cbn [hyp_of segs cuts].
  assert (H : forall todo, incl todo cm -> transViolates todo (map fst ps) (lens 0 ps) (flat_map ptext ps) = Some false).
  { induction todo as [|c todo IH]; intro IN; [reflexivity|]. cbn [transViolates].
    assert (C : In c cm) by (apply IN; now left). pose proof (gc_range c C) as RG.
    assert (Q : transViolatesSrcPhrConstraint c (map fst ps) (lens 0 ps) (flat_map ptext ps) = Some false).
    { unfold transViolatesSrcPhrConstraint. destruct (related_spec _ (fst (fst c)) ps []) as (o & E & O). cbn [length app] in E. rewrite E.
      destruct o as [[s [lo hi]]|]; [|reflexivity]. destruct O as (b1 & p & b2 & -> & I & -> & -> & ->). cbn [app].
      destruct (RS c C p) as (E1 & E2); [apply in_elt|exists (fst (fst c)); split; [unfold in_seg; lia|assumption]|].
      rewrite E1, (proj2 (seg_eqb_eq _ _) eq_refl). rewrite usub_ok by lia.
      assert (L : length (snd p) = length (snd c)) by (rewrite <- E2; now rewrite map_length).
      replace (tlen b1 + length (snd p) + 1 - S (tlen b1)) with (length (snd c)) by lia. rewrite Nat.eqb_refl.
      rewrite flat_map_app. cbn [flat_map].
      assert (T : ptext p = snd c).
      { rewrite <- E2. unfold pair_text. apply map_ext_in. intros w W. destruct (list_eq_dec ascii_dec (itos w) UNKS) as [X|]; [|reflexivity].
        exfalso. apply (NU c C). rewrite <- E2, <- X. now apply in_map. }
      rewrite T. replace (S (tlen b1) - 1) with (length (flat_map ptext b1)) by (rewrite ptext_len; lia). apply cmp_ok. }
    rewrite Q. apply IH. intros x X. apply IN. now right. }
  rewrite H; [reflexivity|]. intros x X. exact X.
Qed.

(** ** expansion *)
Definition good (ps : list (seg * list nat)) : Prop := well_segmented n (map fst ps) /\ respects itos cm ps.
Local Notation usab := (usable srcSent cm stoi UNK unseen nbest A).
Local Notation opts := (getTransForHypUncovGap srcSent cm stoi UNK unseen nbest).
Lemma usable_respects : forall l r phr c, l <= r -> usab l r phr -> In c cm -> overlaps (fst c) (l, r) -> (l, r) = fst c /\ map itos phr = snd c.
Proof.
  intros l r phr c L [(t & T & ->)|(N & _)] C O; [|exfalso; now apply (N c C)].
  assert (c = ((l, r), t)) as ->. { apply (disj_unique cm); auto using gc_disj. }
  split; [reflexivity|]. cbn [snd]. rewrite map_map. rewrite <- (map_id t) at 2. apply map_ext_in. intros x X. exact (V _ x C X).
Qed.
Lemma opts_some : forall l r, 1 <= l <= r -> r <= n -> exists phrs, opts l r = Some phrs /\
  forall phr, (In phr phrs /\ (srcPhrAffectedByConstraint cm (l, r) = true \/ r - l + 1 <= A)) <-> usab l r phr.
Proof.
  intros l r L R. unfold getTransForHypUncovGap. destruct (srcPhrAffectedByConstraint cm (l, r)) eqn:AF.
  - eexists. split; [reflexivity|]. intro phr.
    apply affected_spec in AF; [|lia|apply gc_fl]. destruct AF as (c & C & O).
    destruct (in_dec (fun a b : seg => ltac:(decide equality; apply Nat.eq_dec) : {a = b} + {a <> b}) (l, r) (map fst cm)) as [I|NI].
    + apply in_map_iff in I. destruct I as (d & E & D).
      pose proof (trans_of cm d gc_disj D ltac:(pose proof (gc_range d D); lia)) as T. rewrite E in T. rewrite T.
      assert (snd d <> []) by (destruct GC as (_ & NEm); rewrite Forall_forall in NEm; now apply NEm).
      destruct (Nat.ltb_spec 0 (length (snd d))); [|destruct (snd d); [congruence|simpl in *; lia]].
      split.
      * intros ([<-|[]] & _). left. exists (snd d). split; [|reflexivity]. rewrite <- E. now destruct d.
      * intros [(t & T' & ->)|(N & _)]; [|exfalso; now apply (N c C)].
        assert (d = ((l, r), t)) as ->. { apply (disj_unique cm); auto using gc_disj. rewrite E. exists l. unfold in_seg. cbn [fst snd]. lia. }
        cbn [snd]. split; [now left|now left].
    + rewrite trans_of_none by assumption. cbn [length Nat.ltb Nat.leb]. split; [intros ([] & _)|].
      intros [(t & T & ->)|(N & _)]; [|exfalso; now apply (N c C)]. exfalso. apply NI. apply in_map_iff. now exists ((l, r), t).
  - assert (NA : forall c, In c cm -> ~ overlaps (fst c) (l, r)).
    { intros c C O. assert (X : srcPhrAffectedByConstraint cm (l, r) = true); [|congruence]. apply affected_spec; [lia|apply gc_fl|]. now exists c. }
    assert (NT : forall t, In ((l, r), t) cm -> False).
    { intros t T. apply (NA _ T). exists l. unfold in_seg. cbn [fst snd]. lia. }
    unfold usable. destruct (Nat.eqb_spec l r) as [->|NE]; cbn [andb].
    + rewrite (nth_error_nth' srcSent []) by lia. eexists. split; [reflexivity|]. intro phr.
      destruct (unseen (nth (r - 1) srcSent [])); (split; [intros (I & [X|X]); [discriminate|]; right; split; [assumption|]; split; [assumption|] | intros [(t & T & _)|(_ & X & Y)]; [exfalso; eauto|]]).
      * now destruct I as [<-|[]].
      * subst phr. split; [now left|now right].
      * assumption.
      * split; [assumption|now right].
    + eexists. split; [reflexivity|]. intro phr. split.
      * intros (I & [X|X]); [discriminate|]. right. auto.
      * intros [(t & T & _)|(_ & X & Y)]; [exfalso; eauto|]. split; [assumption|now right].
Qed.
Lemma good_snoc : forall (ps : list (seg * list nat)) l r phr, good ps -> 1 <= l <= r -> r <= n -> (forall j, l <= j <= r -> ~ covered (map fst ps) j) ->
  (forall c, In c cm -> overlaps (fst c) (l, r) -> (l, r) = fst c /\ map itos phr = snd c) -> good (ps ++ [((l, r), phr)]).
Proof.
  intros ps l r phr ((F & D) & RS) L R UC H. split; [split|].
  - rewrite map_app. apply Forall_app. split; [assumption|]. constructor; [cbn [fst snd]; lia|constructor].
  - rewrite map_app. apply fop_snoc; [assumption|]. apply Forall_forall. intros s S j (J1 & J2). apply (UC j).
    + exact J2.
    + now exists s.
  - intros c C p P O. apply in_app_iff in P. destruct P as [P|[<-|[]]]; [now apply RS|]. now apply H.
Qed.
Lemma ext_loop_spec : forall (ps : list (seg * list nat)) l r phrs, (forall phr, In phr phrs -> good (ps ++ [((l, r), phr)])) ->
  ext_loop srcSent cm itos UNKS (hyp_of ps) l r phrs = Some (map (fun phr => hyp_of (ps ++ [((l, r), phr)])) phrs).
Proof.
  intros ps l r. induction phrs as [|p phrs IH]; intro G; [reflexivity|]. cbn [ext_loop]. rewrite extend_hyp_of.
  destruct (G p (or_introl eq_refl)) as ((F & D) & RS).
  rewrite text_spec by assumption. rewrite satisfied by assumption. rewrite IH by (intros q Q; apply G; now right). reflexivity.
Qed.
Lemma aff_respects : forall l r phr phrs, 1 <= l <= r -> r <= n -> opts l r = Some phrs -> In phr phrs ->
  forall c, In c cm -> overlaps (fst c) (l, r) -> (l, r) = fst c /\ map itos phr = snd c.
Proof.
  intros l r phr phrs L R E I c C O. destruct (opts_some l r L R) as (phrs' & E' & H). rewrite E in E'. injection E' as <-.
  apply (usable_respects l r phr c); [lia| |assumption|assumption]. apply H. split; [assumption|]. left. apply affected_spec; [lia|apply gc_fl|]. now exists c.
Qed.
Local Notation hypx ps l r phr := (hyp_of (ps ++ [((l, r), phr)])).
Lemma y_loop_spec : forall (ps : list (seg * list nat)) l, good ps -> 1 <= l -> forall m r0, l <= r0 -> r0 + m <= n + 1 -> (forall j, l <= j < r0 + m -> ~ covered (map fst ps) j) ->
  exists L, y_loop srcSent cm itos stoi UNK UNKS unseen nbest A (hyp_of ps) l (seq r0 m) = Some L /\
  forall h', In h' L <-> exists r phrs phr, r0 <= r < r0 + m /\ opts l r = Some phrs /\ In phr phrs /\
     (forall y, r0 <= y <= r -> A < y - l + 1 -> srcPhrAffectedByConstraint cm (l, y) = true) /\ h' = hypx ps l r phr.
Proof.
  intros ps l G L1. induction m as [|m IH]; intros r0 R0 RN UC.
  - exists []. split; [reflexivity|]. intro h'. split; [intros []|]. intros (r & phrs & phr & ? & _). lia.
  - cbn [seq y_loop]. destruct ((A <? r0 - l + 1) && negb (srcPhrAffectedByConstraint cm (l, r0))) eqn:BR.
    + exists []. split; [reflexivity|]. intro h'. split; [intros []|]. intros (r & phrs & phr & RR & _ & _ & H & _).
      apply andb_true_iff in BR. destruct BR as [B1 B2]. apply Nat.ltb_lt in B1. rewrite (H r0) in B2 by lia. discriminate.
    + destruct (opts_some l r0 ltac:(lia) ltac:(lia)) as (phrs & EO & _). rewrite EO.
      destruct (IH (S r0)) as (L & EL & HL); [lia|lia|intros j J; apply UC; lia|]. rewrite EL.
      rewrite ext_loop_spec.
      2:{ intros phr P. apply good_snoc; auto; try lia.
          - intros j J. apply UC. lia.
          - intros c C O. exact (aff_respects l r0 phr phrs ltac:(lia) ltac:(lia) EO P c C O). }
      eexists. split; [reflexivity|]. intro h'. rewrite in_app_iff, HL, in_map_iff.
      assert (B : forall y, y = r0 -> A < y - l + 1 -> srcPhrAffectedByConstraint cm (l, y) = true).
      { intros y -> Y. apply andb_false_iff in BR. rewrite Nat.ltb_ge in BR. destruct BR as [BR|BR]; [lia|]. now apply negb_false_iff in BR. }
      split.
      * intros [(phr & <- & P)|(r & ph & phr & RR & EO' & P & H & ->)].
        -- exists r0, phrs, phr. split; [lia|]. split; [assumption|]. split; [assumption|]. split; [|reflexivity]. intros y Y. apply B. lia.
        -- exists r, ph, phr. split; [lia|]. split; [assumption|]. split; [assumption|]. split; [|reflexivity]. intros y Y Y2.
           destruct (Nat.eq_dec y r0) as [E|E]; [now apply B|]. apply H; [lia|assumption].
      * intros (r & ph & phr & RR & EO' & P & H & ->). destruct (Nat.eq_dec r r0) as [->|E].
        -- left. rewrite EO in EO'. injection EO' as <-. now exists phr.
        -- right. exists r, ph, phr. split; [lia|]. split; [assumption|]. split; [assumption|]. split; [|reflexivity]. intros y Y. apply H. lia.
Qed.
Lemma y_cond : forall l r phrs phr, 1 <= l <= r -> r <= n -> opts l r = Some phrs -> In phr phrs ->
  ((forall y, l <= y <= r -> A < y - l + 1 -> srcPhrAffectedByConstraint cm (l, y) = true) <-> usab l r phr).
Proof.
  intros l r phrs phr L R EO P. destruct (opts_some l r L R) as (phrs' & E' & H). rewrite EO in E'. injection E' as <-. rewrite <- H. split.
  - intro Y. split; [assumption|]. destruct (le_lt_dec (r - l + 1) A); [now right|]. left. apply Y; lia.
  - intro X. assert (UX := proj1 (H phr) X). intros y Y AY. apply affected_spec; [lia|apply gc_fl|].
    destruct UX as [(t & T & _)|(N & B & _)]; [|lia]. exists ((l, r), t). split; [assumption|]. exists l. unfold in_seg. cbn [fst snd]. lia.
Qed.
Lemma y_loop_full : forall (ps : list (seg * list nat)) l b, good ps -> 1 <= l <= b -> b <= n -> (forall j, l <= j <= b -> ~ covered (map fst ps) j) ->
  exists L, y_loop srcSent cm itos stoi UNK UNKS unseen nbest A (hyp_of ps) l (seq l (b + 1 - l)) = Some L /\
  forall h', In h' L <-> exists r phr, l <= r <= b /\ usab l r phr /\ h' = hypx ps l r phr.
Proof.
  intros ps l b G L B UC. destruct (y_loop_spec ps l G ltac:(lia) (b + 1 - l) l) as (R & E & H); [lia|lia|intros j J; apply UC; lia|].
  exists R. split; [assumption|]. intro h'. rewrite H. split.
  - intros (r & phrs & phr & RR & EO & P & Y & ->). exists r, phr. split; [lia|]. split; [|reflexivity]. apply (y_cond l r phrs phr); auto; lia.
  - intros (r & phr & RR & US & ->). destruct (opts_some l r ltac:(lia) ltac:(lia)) as (phrs & EO & HO).
    pose proof (proj2 (HO phr) US) as (P & _). exists r, phrs, phr. split; [lia|]. split; [assumption|]. split; [assumption|]. split; [|reflexivity].
    apply (y_cond l r phrs phr); auto; lia.
Qed.
Lemma x_loop_spec : forall (ps : list (seg * list nat)) a b, good ps -> 1 <= a <= b -> b <= n -> (forall j, a <= j <= b -> ~ covered (map fst ps) j) ->
  forall m x0, x0 + m <= b - a + 1 ->
  exists L, x_loop srcSent cm itos stoi UNK UNKS unseen nbest A U (hyp_of ps) (a, b) (seq x0 m) = Some L /\
  forall h', In h' L <-> exists x r phr, x0 <= x < x0 + m /\ x <= U /\ a + x <= r <= b /\ usab (a + x) r phr /\ h' = hypx ps (a + x) r phr.
Proof.
  intros ps a b G AB BN UC. induction m as [|m IH]; intros x0 X0.
  - exists []. split; [reflexivity|]. intro h'. split; [intros []|]. intros (x & r & phr & ? & _). lia.
  - cbn [seq x_loop]. destruct (IH (S x0) ltac:(lia)) as (L & EL & HL). rewrite EL. cbn [fst snd]. destruct (Nat.leb_spec x0 U) as [XU|XU].
    + destruct (y_loop_full ps (a + x0) b G ltac:(lia) BN) as (L1 & E1 & H1); [intros j J; apply UC; lia|]. rewrite E1.
      eexists. split; [reflexivity|]. intro h'. rewrite in_app_iff, H1, HL. split.
      * intros [(r & phr & X)|(x & r & phr & X)]; [exists x0, r, phr|exists x, r, phr]; intuition lia.
      * intros (x & r & phr & X). destruct (Nat.eq_dec x x0) as [->|]; [left; exists r, phr; intuition lia|right; exists x, r, phr; intuition lia].
    + eexists. split; [reflexivity|]. intro h'. cbn [app]. rewrite HL. split.
      * intros (x & r & phr & X); exists x, r, phr; intuition lia.
      * intros (x & r & phr & X). destruct (Nat.eq_dec x x0) as [->|]; [lia|exists x, r, phr; intuition lia].
Qed.
Lemma gap_loop_spec : forall (ps : list (seg * list nat)), good ps -> forall gs, Forall (is_gap n (covered (map fst ps))) gs ->
  exists L, gap_loop srcSent cm itos stoi UNK UNKS unseen nbest A U (hyp_of ps) gs = Some L /\
  forall h', In h' L <-> exists g l r phr, In g gs /\ fst g <= l <= r /\ r <= snd g /\ l - fst g <= U /\ usab l r phr /\ h' = hypx ps l r phr.
Proof.
  intros ps G. induction gs as [|g gs IH]; intro F.
  - exists []. split; [reflexivity|]. intro h'. split; [intros []|]. intros (g & l & r & phr & [] & _).
  - inversion F as [|g' gs' Fg Fgs]; subst. destruct (IH Fgs) as (L & EL & HL). cbn [gap_loop]. rewrite EL.
    destruct Fg as (A1 & A2 & A3 & _). destruct g as [a b]. cbn [fst snd] in *. rewrite usub_ok by lia.
    destruct (x_loop_spec ps a b G A1 A2 (fun j J => A3 j J) (b - a + 1) 0 (le_n _)) as (L1 & E1 & H1).
    rewrite E1. eexists. split; [reflexivity|]. intro h'. rewrite in_app_iff, H1, HL. split.
    + intros [(x & r & phr & X1 & X2 & X3 & X4 & X5)|(g & l & r & phr & X1 & X)].
      * exists (a, b), (a + x), r, phr. cbn [fst snd]. split; [now left|]. split; [lia|]. split; [lia|]. split; [lia|]. now split.
      * exists g, l, r, phr. split; [now right|assumption].
    + intros (g & l & r & phr & [<-|X1] & X2 & X3 & X4 & X5 & X6).
      * left. cbn [fst snd] in *. exists (l - a), r, phr. replace (a + (l - a)) with l by lia. split; [lia|]. split; [lia|]. split; [lia|]. now split.
      * right. exists g, l, r, phr. tauto.
Qed.
Theorem expand_spec : forall (ps : list (seg * list nat)), good ps ->
  exists L, expd (hyp_of ps) = Some L /\
  forall h', In h' L <-> exists g l r phr, is_gap n (covered (map fst ps)) g /\ fst g <= l <= r /\ r <= snd g /\ l - fst g <= U /\
     usab l r phr /\ h' = hypx ps l r phr.
Proof.
  intros ps G. unfold expand.
  assert (N : numberOfUncoveredSrcWords n nullHypothesisHypData = n).
  { unfold numberOfUncoveredSrcWords. cbn. now rewrite Nat.sub_0_r. }
  rewrite N. destruct (extract_gaps_spec (getKey (segs (hyp_of ps))) n) as (_ & EG).
  assert (EQ : forall g, In g (extract_gaps n (getKey (segs (hyp_of ps)))) <-> is_gap n (covered (map fst ps)) g).
  { intro g. rewrite EG. unfold is_gap. cbn [hyp_of segs]. rewrite !getKey_spec. split; intros (B1 & B2 & B3 & B4 & B5); (split; [assumption|]; split; [assumption|]; split; [|split; assumption]);
      intros j J X; apply (B3 j J); now apply getKey_spec. }
  destruct (gap_loop_spec ps G (extract_gaps n (getKey (segs (hyp_of ps))))) as (L & E & H); [apply Forall_forall; intros g X; now apply EQ|].
  exists L. split; [exact E|]. intro h'. rewrite H. split; intros (g & l & r & phr & X1 & X); exists g, l, r, phr; (split; [now apply EQ|assumption]).
Qed.
Lemma good_null : good [].
Proof. split; [split; constructor|]. intros c C p []. Qed.
Theorem reachable_good : forall h, reachable srcSent cm itos stoi UNK UNKS unseen nbest A U h ->
  exists ps, h = hyp_of ps /\ good ps /\ Forall (fun p => usab (fst (fst p)) (snd (fst p)) (snd p)) ps.
Proof.
  intros h R. induction R as [|h l h' R IH E I].
  - exists []. split; [reflexivity|]. split; [apply good_null|constructor].
  - destruct IH as (ps & -> & G & F). destruct (expand_spec ps G) as (L & E' & H). rewrite E in E'. injection E' as <-.
    apply H in I. destruct I as (g & a & b & phr & (G1 & G2 & G3 & _) & X1 & X2 & X3 & X4 & ->).
    exists (ps ++ [((a, b), phr)]). split; [reflexivity|]. split.
    + apply good_snoc; auto; try lia.
      * intros j J. apply G3. unfold in_seg. lia.
      * intros c C O. apply (usable_respects a b phr c); auto. lia.
    + apply Forall_app. split; [assumption|]. constructor; [exact X4|constructor].
Qed.
(** an incomplete hypothesis can always be expanded when every word outside the constraints has a translation *)
Lemma cov_dec : forall ss j, covered ss j \/ ~ covered ss j.
Proof. intros. rewrite <- covb_spec. destruct (covb ss j); [now left|right; discriminate]. Qed.
Lemma gap_exists : forall ss j, 1 <= j <= n -> ~ covered ss j -> exists g, is_gap n (covered ss) g /\ in_seg g j.
Proof.
  intros ss j J N.
  assert (LFT : forall k, k < j -> exists a, 1 <= a <= j /\ j - a <= k /\ (forall i, a <= i <= j -> ~ covered ss i) /\ (a = 1 \/ covered ss (a - 1) \/ j - a = k)).
  { induction k as [|k IH]; intro K.
    - exists j. split; [lia|]. split; [lia|]. split; [intros i I; now replace i with j by lia|]. right. right. lia.
    - destruct (IH ltac:(lia)) as (a & A1 & A2 & A3 & A4). destruct A4 as [A4|[A4|A4]].
      + exists a. repeat split; try lia; auto.
      + exists a. repeat split; try lia; auto.
      + destruct (Nat.eq_dec a 1) as [->|]; [exists 1; repeat split; try lia; auto|].
        destruct (cov_dec ss (a - 1)) as [C|C]; [exists a; repeat split; try lia; auto|].
        exists (a - 1). split; [lia|]. split; [lia|]. split; [|right; right; lia].
        intros i I. destruct (Nat.eq_dec i (a - 1)); [now subst|apply A3; lia]. }
  assert (RGT : forall k, exists b, j <= b <= n /\ (forall i, j <= i <= b -> ~ covered ss i) /\ (b = n \/ covered ss (b + 1) \/ b - j = k)).
  { induction k as [|k IH].
    - exists j. split; [lia|]. split; [intros i I; now replace i with j by lia|]. right. right. lia.
    - destruct IH as (b & B1 & B2 & B3). destruct B3 as [B3|[B3|B3]]; [exists b; repeat split; try lia; auto..|].
      destruct (Nat.eq_dec b n); [exists b; repeat split; try lia; auto|].
      destruct (cov_dec ss (b + 1)) as [C|C]; [exists b; repeat split; try lia; auto|].
      exists (b + 1). split; [lia|]. split; [|right; right; lia].
      intros i I. destruct (Nat.eq_dec i (b + 1)); [now subst|apply B2; lia]. }
  destruct (LFT (j - 1) ltac:(lia)) as (a & A1 & A2 & A3 & A4). destruct (RGT n) as (b & B1 & B2 & B3).
  exists (a, b). split; [|split; cbn [fst snd]; lia]. unfold is_gap. cbn [fst snd]. split; [lia|]. split; [lia|]. split; [|split].
  - intros i [I1 I2]. cbn [fst snd] in *. destruct (le_lt_dec i j); [apply A3|apply B2]; lia.
  - destruct A4 as [A4|[A4|A4]]; [now left|now right|left; lia].
  - destruct B3 as [B3|[B3|B3]]; [now left|now right|lia].
Qed.
Theorem no_dead_end : forall (ps : list (seg * list nat)), 1 <= A -> good ps -> (exists j, 1 <= j <= n /\ ~ covered (map fst ps) j) ->
  (forall j, 1 <= j <= n -> (forall c, In c cm -> ~ in_seg (fst c) j) -> unseen (nth (j - 1) srcSent []) = true \/ nbest j j <> []) ->
  exists h' L, expd (hyp_of ps) = Some (h' :: L).
Proof.
  intros ps A1 G (j & J & NC) T. destruct (gap_exists _ _ J NC) as ([a b] & IG & IJ).
  destruct (expand_spec ps G) as (L & E & H).
  assert (X : exists h', In h' L).
  { destruct (IG) as (G1 & G2 & G3 & G4 & G5). cbn [fst snd] in *.
    destruct (in_dec Nat.eq_dec a (flat_map positions (map fst cm))) as [I|NI].
    - apply flat_positions_in in I. destruct I as (s & S & IS). apply in_map_iff in S. destruct S as (c & <- & C).
      pose proof (gc_range c C) as RG. destruct G as (WS & RS).
      assert (UC : forall i, in_seg (fst c) i -> ~ covered (map fst ps) i).
      { intros i I (s & S & Is). apply in_map_iff in S. destruct S as (p & <- & P).
        destruct (RS c C p P) as (E1 & _); [now exists i|]. apply (G3 a); [split; cbn [fst snd]; lia|]. exists (fst p). split; [now apply in_map|]. now rewrite E1. }
      assert (fst (fst c) = a).
      { unfold in_seg in IS. destruct (Nat.eq_dec (fst (fst c)) a); [assumption|]. exfalso. destruct G4 as [G4|G4]; [lia|].
        apply (UC (a - 1)); [unfold in_seg; lia|assumption]. }
      assert (snd (fst c) <= b).
      { destruct (le_lt_dec (snd (fst c)) b); [assumption|]. exfalso. destruct G5 as [G5|G5]; [lia|]. apply (UC (b + 1)); [unfold in_seg; lia|assumption]. }
      eexists. apply H. exists (a, b), a, (snd (fst c)), (map stoi (snd c)). cbn [fst snd]. split; [exact IG|]. split; [lia|]. split; [lia|]. split; [lia|].
      split; [|reflexivity]. left. exists (snd c). split; [|reflexivity]. destruct c as [[x y] t]. cbn [fst snd] in *. now subst.
    - assert (NA : forall c, In c cm -> ~ in_seg (fst c) a).
      { intros c C I. apply NI, flat_positions_in. exists (fst c). split; [now apply in_map|assumption]. }
      destruct (T a ltac:(lia) NA) as [W|W].
      + eexists. apply H. exists (a, b), a, a, [UNK]. cbn [fst snd]. split; [exact IG|]. split; [lia|]. split; [lia|]. split; [lia|]. split; [|reflexivity].
        right. split; [|split; [lia|]].
        * intros c C (i & I1 & I2). apply (NA c C). unfold in_seg in I2. cbn [fst snd] in I2. now replace a with i by lia.
        * now rewrite Nat.eqb_refl, W.
      + destruct (nbest a a) as [|phr rest] eqn:NB; [congruence|].
        destruct (unseen (nth (a - 1) srcSent [])) eqn:UN.
        * eexists. apply H. exists (a, b), a, a, [UNK]. cbn [fst snd]. split; [exact IG|]. split; [lia|]. split; [lia|]. split; [lia|]. split; [|reflexivity].
          right. split; [|split; [lia|]]; [|now rewrite Nat.eqb_refl, UN].
          intros c C (i & I1 & I2). apply (NA c C). unfold in_seg in I2. cbn [fst snd] in I2. now replace a with i by lia.
        * eexists. apply H. exists (a, b), a, a, phr. cbn [fst snd]. split; [exact IG|]. split; [lia|]. split; [lia|]. split; [lia|]. split; [|reflexivity].
          right. split; [|split; [lia|]]; [|rewrite Nat.eqb_refl, UN, NB; now left].
          intros c C (i & I1 & I2). apply (NA c C). unfold in_seg in I2. cbn [fst snd] in I2. now replace a with i by lia. }
  destruct X as (h' & X). destruct L as [|x L]; [inversion X|]. now exists x, L.
Qed.
End P.

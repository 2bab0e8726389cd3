From Coq Require Import Reals NArith Arith List Bool Sorted Permutation Lra Lia.
From Verif Require Import AMap LogNum LogNumProofs RSums Ibm1TrainProofs Ibm2Model MrModel MrSpec MrProofs.
Import ListNotations.
Open Scope R_scope.
Lemma NoDup_app_remove_r : forall {A} (a b : list A), NoDup (a ++ b) -> NoDup a.
Proof. intros A a b. induction a as [|x a IH]; intros H; [constructor|]. cbn in H. inversion H; subst. constructor; [intros X; apply H2, in_or_app; left; exact X|apply IH; assumption]. Qed.
Section PR.
Context {K1 K2 : Type}.
Variable lt1 : K1 -> K1 -> bool.
Variable lt2 : K2 -> K2 -> bool.
Variable d1 : forall a b : K1, {a = b} + {a <> b}.
Variable d2 : forall a b : K2, {a = b} + {a <> b}.
Hypothesis O1 : total_order lt1.
Hypothesis O2 : total_order lt2.
Notation record := (rec K1 K2).
Notation call := (list (K2 * lg) * lg * option K1)%type.
Definition vsum (v : list (K2 * lg)) : R := sumf (fun x => lgexp (snd x)) v.
(** the records of a group, without the totals *)
Definition trip (r : record) : K1 * (K2 * lg) := (rs r, (rt r, rn r)).
Definition ctrip (c : list (K2 * lg) * lg * K1) : list (K1 * (K2 * lg)) := let '(v, _, s) := c in map (fun x => (s, x)) v.
Definition okcall (c : list (K2 * lg) * lg * K1) : Prop := let '(v, lc, s) := c in v <> [] /\ finite lc /\ lgexp lc = vsum v.
Definition some_call (c : list (K2 * lg) * lg * K1) : call := let '(v, lc, s) := c in (v, lc, Some s).
Definition csrc (c : list (K2 * lg) * lg * K1) : K1 := snd c.
Lemma fold_prune : forall f v lc s done, v <> [] -> finite lc -> lgexp lc = vsum v -> Forall okcall done -> (forall r, In r f -> finite (rn r) /\ lt1 (rs r) s = false) -> StronglySorted (fun a b : record => lt1 (rs b) (rs a) = false) f ->
  StronglySorted (fun a b => lt1 a b = true) (map csrc done ++ [s]) ->
  exists cs, let st := fold_left (prune_step d1) f {| p_src := Some s; p_lc := lc; p_vec := v; p_calls := map some_call done |} in
    p_calls st ++ [(p_vec st, p_lc st, p_src st)] = map some_call cs /\ Forall okcall cs /\ concat (map ctrip cs) = concat (map ctrip done) ++ ctrip (v, lc, s) ++ map trip f /\
    StronglySorted (fun a b => lt1 a b = true) (map csrc cs).
Proof.
  intros f. induction f as [|r f IH]; intros v lc s done Nv Fl El Fd Hf Sf Sd.
  - exists (done ++ [(v, lc, s)]). cbn. split; [rewrite map_app; reflexivity|]. split; [apply Forall_app; split; [exact Fd|repeat constructor; assumption]|]. split; [rewrite map_app, concat_app; cbn; rewrite !app_nil_r; reflexivity|rewrite map_app; exact Sd].
  - inversion Sf as [|? ? Sf' Ff]; subst. rewrite Forall_forall in Ff. destruct (Hf r (or_introl eq_refl)) as [Fr Lr]. cbn [fold_left]. match goal with |- context [prune_step d1 ?x r] => set (st1 := prune_step d1 x r) end. unfold prune_step in st1. cbn [p_src p_lc p_vec p_calls] in st1. destruct (d1 s (rs r)) as [->|N]; subst st1.
    + destruct (fin_sum lc (rn r) Fl Fr) as [F1 E1]. destruct (IH (v ++ [(rt r, rn r)]) (lgsumlog lc (rn r)) (rs r) done) as (cs & A & B & C & D); auto.
      * destruct v; discriminate. * rewrite E1, El. unfold vsum. rewrite sumf_app. cbn. ring. * intros r' Hr'. apply Hf. right; exact Hr'.
      * exists cs. split; [exact A|]. split; [exact B|]. split; [|exact D]. rewrite C. f_equal. cbn [ctrip map]. rewrite map_app, <- app_assoc. reflexivity.
    + assert (Lt : lt1 s (rs r) = true) by (destruct (lt1 s (rs r)) eqn:Q; [reflexivity|]; exfalso; apply N, (proj2 (proj2 O1)); assumption).
      destruct (IH [(rt r, rn r)] (rn r) (rs r) (done ++ [(v, lc, s)])) as (cs & A & B & C & D).
      * discriminate. * exact Fr. * unfold vsum. cbn. ring. * apply Forall_app; split; [exact Fd|repeat constructor; assumption].
      * intros r' Hr'. split; [apply Hf; right; exact Hr'|apply Ff, Hr']. * exact Sf'.
      * rewrite map_app. cbn [map csrc snd]. apply ssorted_app. split; [exact Sd|]. split; [repeat constructor|]. intros x y X [<-|[]]. apply in_app_or in X as [X|[<-|[]]]; [|exact Lt]. apply ssorted_app in Sd as (_ & _ & Q). apply (proj1 (proj2 O1)) with (b := s); [apply Q; [exact X|left; reflexivity]|exact Lt].
      * exists cs. split; [rewrite map_app in A; exact A|]. split; [exact B|]. split; [|exact D]. rewrite C, map_app, concat_app. cbn [map concat ctrip]. rewrite app_nil_r, <- !app_assoc. reflexivity.
Qed.
Lemma calls_ok : forall f, strictly_sorted lt1 lt2 f -> (forall r, In r f -> finite (rn r)) -> f <> [] ->
  exists cs, prune_calls d1 f = map some_call cs /\ Forall okcall cs /\ concat (map ctrip cs) = map trip f /\ StronglySorted (fun a b => lt1 a b = true) (map csrc cs).
Proof.
  intros [|r f] S0 Fn Ne; [congruence|]. unfold prune_calls. cbn [fold_left]. change (prune_step d1 {| p_src := None; p_lc := LZ; p_vec := []; p_calls := [] |} r) with {| p_src := Some (rs r); p_lc := rn r; p_vec := [(rt r, rn r)]; p_calls := [] |}.
  inversion S0 as [|? ? S1 F1]; subst. rewrite Forall_forall in F1.
  assert (Nlt : forall a b : record, klt lt1 lt2 a b -> lt1 (rs b) (rs a) = false). { intros a b [H|[H _]]; [apply asym1; assumption|]. rewrite H. apply O1. }
  destruct (fold_prune f [(rt r, rn r)] (rn r) (rs r) []) as (cs & A & B & C & D).
  - discriminate. - apply Fn; left; reflexivity. - unfold vsum. cbn. ring. - constructor.
  - intros r' Hr'. split; [apply Fn; right; exact Hr'|]. apply Nlt, F1, Hr'.
  - clear -S1 Nlt. induction S1 as [|a l S1 IH F]; constructor; [exact IH|]. eapply Forall_impl; [|exact F]. intros b Hb. apply Nlt, Hb.
  - repeat constructor.
  - exists cs. split; [exact A|]. split; [exact B|]. split; [exact C|exact D].
Qed.
Lemma keep_ok : forall n c lc (v : list (K2 * lg)) nl num, let k := prune_keep n c lc nl num v in
  exists m, fst k = (num + m)%nat /\ (m <= length v)%nat /\ (forall x, In x (firstn m v) -> c <= lgexp (lgsub (snd x) lc)) /\ ((0 < n)%nat -> (num <= n)%nat -> (num + m <= n)%nat) /\
    (m = length v \/ ((0 < n)%nat /\ (n <= num + m)%nat) \/ exists x w, skipn m v = x :: w /\ lgexp (lgsub (snd x) lc) < c) /\
    snd k = fold_left (fun a x => lgsumlog a (snd x)) (firstn m v) nl.
Proof.
  intros n c lc v. induction v as [|[t x] v IH]; intros nl num; cbn [prune_keep length].
  - exists 0%nat. cbn. split; [lia|]. split; [lia|]. split; [intros ? []|]. split; [lia|]. split; [left; reflexivity|reflexivity].
  - destruct (((num <? n)%nat || (n <=? 0)%nat) && (if Rle_dec c (lgexp (lgsub x lc)) then true else false))%bool eqn:Q.
    + destruct (IH (lgsumlog nl x) (S num)) as (m & A & B & C & D & E & F). exists (S m). cbn [firstn skipn fold_left snd]. split; [rewrite A; lia|]. split; [lia|]. apply andb_true_iff in Q as [Q1 Q2]. split; [|split; [|split; [|exact F]]].
      * intros y [<-|Y]; [|apply C, Y]. cbn. destruct (Rle_dec c (lgexp (lgsub x lc))); [assumption|discriminate].
      * intros P1 P2. apply orb_true_iff in Q1. rewrite Nat.ltb_lt, Nat.leb_le in Q1. destruct Q1 as [Q1|Q1]; [|lia]. specialize (D P1). lia.
      * destruct E as [E|[E|E]]; [left; lia|right; left; lia|right; right; exact E].
    + exists 0%nat. cbn. split; [lia|]. split; [lia|]. split; [intros ? []|]. split; [lia|]. split; [|reflexivity]. right. apply andb_false_iff in Q as [Q|Q].
      * left. apply orb_false_iff in Q as [Q1 Q2]. rewrite Nat.ltb_ge in Q1. rewrite Nat.leb_gt in Q2. lia.
      * right. exists (t, x), v. split; [reflexivity|]. cbn. destruct (Rle_dec c (lgexp (lgsub x lc))); [discriminate|lra].
Qed.
Lemma fold_sum : forall v a, finite a -> (forall x : K2 * lg, In x v -> finite (snd x)) -> finite (fold_left (fun a x => lgsumlog a (snd x)) v a) /\ lgexp (fold_left (fun a x => lgsumlog a (snd x)) v a) = lgexp a + vsum v.
Proof.
  intros v. induction v as [|x v IH]; intros a Fa Fv; [split; [exact Fa|unfold vsum; cbn; ring]|]. cbn [fold_left]. destruct (fin_sum a (snd x) Fa (Fv x (or_introl eq_refl))) as [A B].
  destruct (IH _ A) as [C D]; [intros; apply Fv; right; assumption|]. split; [exact C|]. rewrite D, B. unfold vsum. cbn [sumf]. ring.
Qed.
Lemma vsum_perm : forall v v', Permutation v v' -> vsum v = vsum v'.
Proof. intros v v' P. unfold vsum. induction P; cbn; [reflexivity|rewrite IHP; reflexivity|ring|congruence]. Qed.
(** one group *)
Definition outrec (s : K1) (d : lg) (x : K2 * lg) : record := {| rs := s; rt := fst x; rn := snd x; rd := d |}.
Lemma group_pruned : forall n c v lc s out, okcall (v, lc, s) -> (forall x, In x v -> finite (snd x)) -> prune_print n c (v, lc, Some s) out ->
  exists kp dr d, Permutation v (kp ++ dr) /\ out = map (outrec s d) kp /\ ((0 < n)%nat -> (length kp <= n)%nat) /\ (forall x, In x kp -> c <= lgexp (snd x) / vsum v) /\
    (forall x, In x dr -> ((0 < n)%nat /\ length kp = n) \/ lgexp (snd x) / vsum v < c) /\ (forall x y, In x dr -> In y kp -> lgexp (snd x) <= lgexp (snd y)) /\ (kp <> [] -> finite d /\ lgexp d = vsum kp).
Proof.
  intros n c v lc s out (Nv & Fl & El) Fv (v' & P & S0 & H). cbn beta zeta in H. destruct (keep_ok n c lc v' LZ 0) as (m & A & B & C & D & E & F). rewrite plus_O_n in *. rewrite A in H.
  assert (Fv' : forall x, In x v' -> finite (snd x)) by (intros x X; apply Fv; apply (Permutation_in _ (Permutation_sym P)), X).
  assert (Dv : forall x, In x v' -> lgexp (lgsub (snd x) lc) = lgexp (snd x) / vsum v). { intros x X. destruct (Fv' x X) as [y ->], Fl as [z ->]. rewrite <- El. apply lgsub_fin; discriminate. }
  assert (Sp : firstn m v' ++ skipn m v' = v') by apply firstn_skipn.
  assert (Vp : 0 < vsum v). { destruct Fl as [z ->]. rewrite <- El. apply exp_pos. }
  assert (Ge : forall a b, finite a -> finite b -> lgltb a b = false -> lgexp b <= lgexp a).
  { intros a b [x ->] [y ->] Q. cbn in *. destruct (Rlt_dec x y); [discriminate|]. destruct (Req_dec x y) as [->|]; [lra|]. left. apply exp_increasing. lra. }
  exists (firstn m v'), (skipn m v'), (snd (prune_keep n c lc LZ 0 v')). split; [rewrite Sp; exact P|]. split; [exact H|]. rewrite firstn_length_le by exact B.
  rewrite <- Sp in S0. apply ssorted_app in S0 as (S1 & S2 & S3).
  assert (I1 : forall x, In x (firstn m v') -> In x v') by (intros x X; rewrite <- Sp; apply in_or_app; tauto). assert (I2 : forall x, In x (skipn m v') -> In x v') by (intros x X; rewrite <- Sp; apply in_or_app; tauto).
  split; [intros; apply D; lia|]. split; [intros x X; rewrite <- Dv by auto; apply C, X|]. split; [|split].
  - intros x X. destruct E as [E|[E|(y & w & E & Ey)]].
    + rewrite E, skipn_all in X. destruct X.
    + left. destruct E as [E1 E2]. specialize (D E1 (Nat.le_0_l _)). lia.
    + right. rewrite Dv in Ey by (apply I2; rewrite E; left; reflexivity). assert (Q : lgexp (snd x) <= lgexp (snd y)).
      { rewrite E in X, S2. destruct X as [<-|X]; [lra|]. inversion S2 as [|? ? _ Fy]; subst. rewrite Forall_forall in Fy. apply Ge; [apply Fv', I2; rewrite E; left; reflexivity|apply Fv', I2; rewrite E; right; exact X|apply Fy, X]. }
      eapply Rle_lt_trans; [|exact Ey]. unfold Rdiv. apply Rmult_le_compat_r; [left; apply Rinv_0_lt_compat, Vp|exact Q].
  - intros x y X Y. apply Ge; auto.
  - intros Ne. rewrite F. assert (Ff : forall x, In x (firstn m v') -> finite (snd x)) by auto. destruct (firstn m v') as [|x w]; [congruence|]. cbn [fold_left].
    destruct (Ff x (or_introl eq_refl)) as [z Ez]. assert (Z : lgsumlog LZ (snd x) = snd x) by (rewrite Ez; reflexivity). rewrite Z. destruct (fold_sum w (snd x)) as [G1 G2]; [exists z; exact Ez|intros; apply Ff; right; assumption|]. split; [exact G1|]. rewrite G2. reflexivity.
Qed.
(** all groups *)
Lemma in_concat_groups : forall (cs : list (list (K2 * lg) * lg * K1)) s x, In (s, x) (concat (map ctrip cs)) <-> exists v lc, In (v, lc, s) cs /\ In x v.
Proof.
  intros cs s x. rewrite in_concat. split.
  - intros (l & L1 & L2). apply in_map_iff in L1 as ([[v lc] s'] & <- & L1). cbn in L2. apply in_map_iff in L2 as (y & E & Y). inversion E; subst. eauto.
  - intros (v & lc & A & B). exists (ctrip (v, lc, s)). split; [apply in_map, A|]. cbn. apply in_map, B.
Qed.
Lemma sorted_src_unique : forall (cs : list (list (K2 * lg) * lg * K1)), StronglySorted (fun a b => lt1 a b = true) (map csrc cs) -> forall c c', In c cs -> In c' cs -> csrc c = csrc c' -> c = c'.
Proof.
  intros cs S0. remember (map csrc cs) as l. revert cs Heql. induction S0 as [|a l S0 IH F]; intros [|c0 cs] E c c' H H' Q; try discriminate; [destruct H|]. cbn in E. inversion E; subst. rewrite Forall_forall in F.
  destruct H as [<-|H], H' as [<-|H']; [reflexivity| | |apply (IH cs eq_refl); assumption].
  - exfalso. assert (X : lt1 (csrc c0) (csrc c') = true) by (apply F, in_map, H'). rewrite Q, (proj1 O1) in X. discriminate.
  - exfalso. assert (X : lt1 (csrc c0) (csrc c) = true) by (apply F, in_map, H). rewrite <- Q, (proj1 O1) in X. discriminate.
Qed.
Definition grp (s : K1) (l : list record) : list record := filter (fun r => if d1 (rs r) s then true else false) l.
Lemma mass_grp : forall l s, mass d1 l s = sumf (fun r => lgexp (rn r)) (grp s l).
Proof. intros. unfold mass, grp. rewrite sumf_filter. apply sumf_ext. intros r _. destruct (d1 (rs r) s); reflexivity. Qed.
Lemma grp_outs : forall n c cs outs, Forall2 (prune_print n c) (map some_call cs) outs -> StronglySorted (fun a b => lt1 a b = true) (map csrc cs) ->
  (forall v lc s out, In (v, lc, s) cs -> prune_print n c (v, lc, Some s) out -> forall r, In r out -> rs r = s) ->
  (forall s, ~ In s (map csrc cs) -> grp s (concat outs) = []) /\ forall v lc s, In (v, lc, s) cs -> exists out, prune_print n c (v, lc, Some s) out /\ grp s (concat outs) = out.
Proof.
  intros n c cs. induction cs as [|[[v0 lc0] s0] cs IH]; intros outs F S0 Hs.
  - inversion F; subst. split; [reflexivity|intros v lc s []].
  - cbn [map] in F. inversion F as [|? out ? outs' F1 F2]; subst. cbn [map csrc snd] in S0. inversion S0 as [|? ? S1 F3]; subst. rewrite Forall_forall in F3. cbn [some_call] in F1.
    destruct (IH outs' F2 S1) as [A B]; [intros; eapply Hs; [right; eassumption|eassumption|assumption]|].
    assert (Ho : forall r, In r out -> rs r = s0) by (intros r Hr; eapply Hs; [left; reflexivity|exact F1|exact Hr]).
    assert (Gs : forall s, grp s (out ++ concat outs') = grp s out ++ grp s (concat outs')) by (intros; unfold grp; apply filter_app).
    assert (Ge : grp s0 out = out). { unfold grp. clear -Ho. induction out as [|r l IH]; [reflexivity|]. cbn. rewrite (Ho r (or_introl eq_refl)). destruct (d1 s0 s0); [|congruence]. f_equal. apply IH. intros; apply Ho; right; assumption. }
    assert (Gn : forall s, s <> s0 -> grp s out = []). { intros s N. unfold grp. clear -Ho N. induction out as [|r l IH]; [reflexivity|]. cbn. rewrite (Ho r (or_introl eq_refl)). destruct (d1 s0 s); [congruence|]. apply IH. intros; apply Ho; right; assumption. }
    assert (Ns : ~ In s0 (map csrc cs)) by (intros X; apply F3 in X; rewrite (proj1 O1) in X; discriminate).
    cbn [concat]. split.
    + intros s N. rewrite Gs. rewrite Gn by (intros ->; apply N; left; reflexivity). cbn. apply A. intros X. apply N. right. exact X.
    + intros v lc s [E|H].
      * inversion E; subst. exists out. split; [exact F1|]. rewrite Gs, Ge, (A s Ns). apply app_nil_r.
      * destruct (B v lc s H) as (o & O & E). exists o. split; [exact O|]. rewrite Gs, Gn; [exact E|]. intros ->. apply Ns. change s0 with (csrc (v, lc, s0)). apply in_map, H.
Qed.
Lemma nodup_grp : forall l : list record, (forall s, NoDup (map rt (grp s l))) -> NoDup (map (fun r => (rs r, rt r)) l).
Proof.
  intros l. induction l as [|r l IH]; intros H; [constructor|]. cbn. constructor.
  - intros X. apply in_map_iff in X as (r' & E & Hr'). inversion E. specialize (H (rs r)). unfold grp in H. cbn in H. destruct (d1 (rs r) (rs r)); [|congruence]. cbn in H. inversion H as [|? ? N _]; subst. apply N. apply in_map_iff. exists r'. split; [assumption|]. apply filter_In. split; [exact Hr'|]. destruct (d1 (rs r') (rs r)); congruence.
  - apply IH. intros s. specialize (H s). unfold grp in *. cbn in H. destruct (d1 (rs r) s); [cbn in H; inversion H; assumption|exact H].
Qed.
Theorem prune_correct : forall n c f out, strictly_sorted lt1 lt2 f -> (forall r, In r f -> finite (rn r)) -> prune_tool d1 n c f out -> is_pruned d1 n c f out.
Proof.
  intros n c f out S0 Fn (outs & F & ->). destruct f as [|r0 f0].
  - cbn in F. inversion F as [|? o ? outs' F1 F2]; subst. inversion F2; subst. destruct F1 as (v' & _ & _ & ->). cbn. split; [constructor|]. split; [intros r []|]. split; [intros; cbn; lia|]. split; [intros r []|]. split; [intros r []|]. split; [intros r r' []|intros r []].
  - destruct (calls_ok (r0 :: f0) S0 Fn) as (cs & Ec & Ok & Ef & Ss); [discriminate|]. rewrite Ec in F. set (f := r0 :: f0) in *. clearbody f. rewrite Forall_forall in Ok.
    assert (Hv : forall v lc s x, In (v, lc, s) cs -> In x v -> exists r, In r f /\ rs r = s /\ rt r = fst x /\ rn r = snd x).
    { intros v lc s x H X. assert (Y : In (s, x) (map trip f)) by (rewrite <- Ef; apply in_concat_groups; eauto). apply in_map_iff in Y as (r & E & R). exists r. unfold trip in E. inversion E. cbn. auto. }
    assert (Fv : forall v lc s, In (v, lc, s) cs -> forall x, In x v -> finite (snd x)). { intros v lc s H x X. destruct (Hv _ _ _ _ H X) as (r & R & _ & _ & <-). apply Fn, R. }
    destruct (grp_outs n c cs outs F Ss) as [G0 G1].
    { intros v lc s o H P r Hr. destruct (group_pruned n c v lc s o (Ok _ H) (Fv _ _ _ H) P) as (kp & dr & d & _ & -> & _). apply in_map_iff in Hr as (x & <- & _). reflexivity. }
    assert (Gf : forall v lc s, In (v, lc, s) cs -> map (fun r => (rt r, rn r)) (grp s f) = v).
    { assert (Q : forall s (l : list record), map (fun r => (rt r, rn r)) (grp s l) = map snd (filter (fun q => if d1 (fst q) s then true else false) (map trip l))).
      { intros s l. induction l as [|r l IH]; [reflexivity|]. cbn. destruct (d1 (rs r) s); cbn; [f_equal|]; exact IH. }
      intros v lc s H. rewrite Q, <- Ef. clear -H Ss O1. induction cs as [|[[v0 lc0] s0] cs IH]; [destruct H|]. cbn [map concat ctrip]. cbn [map csrc snd] in Ss. inversion Ss as [|? ? S1 F3]; subst. rewrite Forall_forall in F3. rewrite filter_app, map_app.
      assert (Q0 : filter (fun q => if d1 (fst q) s then true else false) (map (fun x => (s0, x)) v0) = if d1 s0 s then map (fun x => (s0, x)) v0 else []).
      { clear. induction v0 as [|x l IH]; cbn; [destruct (d1 s0 s); reflexivity|]. destruct (d1 s0 s); [f_equal|]; exact IH. }
      rewrite Q0. destruct H as [E|H].
      - inversion E; subst. destruct (d1 s s); [|congruence]. rewrite map_map, map_id.
        assert (Z : filter (fun q => if d1 (fst q) s then true else false) (concat (map ctrip cs)) = []).
        { assert (Ns : forall q, In q (concat (map ctrip cs)) -> fst q <> s). { intros [s' x] X E0. cbn in E0. subst s'. apply in_concat_groups in X as (v1 & lc1 & X & _). assert (Y : lt1 s s = true) by (apply F3, in_map_iff; exists (v1, lc1, s); split; [reflexivity|exact X]). rewrite (proj1 O1) in Y. discriminate. }
          clear -Ns. induction (concat (map ctrip cs)) as [|q l IH]; [reflexivity|]. cbn. destruct (d1 (fst q) s) as [E|]; [destruct (Ns q (or_introl eq_refl) E)|]. apply IH. intros; apply Ns; right; assumption. }
        rewrite Z. apply app_nil_r.
      - destruct (d1 s0 s) as [->|]; [|cbn; apply IH; assumption]. exfalso. assert (Y : lt1 s s = true) by (apply F3, in_map_iff; exists (v, lc, s); split; [reflexivity|exact H]). rewrite (proj1 O1) in Y. discriminate. }
    assert (Mf : forall v lc s, In (v, lc, s) cs -> mass d1 f s = vsum v). { intros v lc s H. rewrite mass_grp. unfold vsum. rewrite <- (Gf v lc s H), sumf_map. reflexivity. }
    assert (NDv : forall v lc s, In (v, lc, s) cs -> NoDup (map fst v)).
    { intros v lc s H. rewrite <- (Gf v lc s H), map_map. cbn. change (NoDup (map rt (grp s f))). assert (Sg : strictly_sorted lt1 lt2 (grp s f)). { clear -S0. unfold grp. induction S0 as [|a l S0 IH F]; cbn; [constructor|]. destruct (d1 (rs a) s); [|exact IH]. constructor; [exact IH|]. rewrite Forall_forall in *. intros x X. apply filter_In in X as [X _]. auto. }
      assert (As : forall r, In r (grp s f) -> rs r = s) by (intros r X; unfold grp in X; apply filter_In in X as [_ X]; destruct (d1 (rs r) s); [assumption|discriminate]). clear -Sg As O2 O1. induction Sg as [|a l Sg IH F]; cbn; constructor.
      - intros X. apply in_map_iff in X as (r & E & R). rewrite Forall_forall in F. specialize (F r R). rewrite (As a (or_introl eq_refl)), (As r (or_intror R)), E, (proj1 O1), (proj1 O2) in F. destruct F as [F|[_ F]]; discriminate.
      - apply IH. intros; apply As; right; assumption. }
    assert (Main : forall s, (exists v lc kp dr d, In (v, lc, s) cs /\ Permutation v (kp ++ dr) /\ grp s (concat outs) = map (outrec s d) kp /\ ((0 < n)%nat -> (length kp <= n)%nat) /\ (forall x, In x kp -> c <= lgexp (snd x) / vsum v) /\
        (forall x, In x dr -> ((0 < n)%nat /\ length kp = n) \/ lgexp (snd x) / vsum v < c) /\ (forall x y, In x dr -> In y kp -> lgexp (snd x) <= lgexp (snd y)) /\ (kp <> [] -> finite d /\ lgexp d = vsum kp)) \/ (grp s (concat outs) = [] /\ forall r, In r f -> rs r <> s)).
    { intros s. destruct (in_dec d1 s (map csrc cs)) as [X|X].
      - left. apply in_map_iff in X as ([[v lc] s'] & E & H). cbn in E. subst s'. destruct (G1 v lc s H) as (o & P & Eo). destruct (group_pruned n c v lc s o (Ok _ H) (Fv _ _ _ H) P) as (kp & dr & d & A1 & A2 & A3). exists v, lc, kp, dr, d. split; [exact H|]. split; [exact A1|]. split; [rewrite Eo; exact A2|exact A3].
      - right. split; [apply G0, X|]. intros r R E. apply X. assert (Y : In (trip r) (concat (map ctrip cs))) by (rewrite Ef; apply in_map, R). unfold trip in Y. apply in_concat_groups in Y as (v & lc & Y & _). rewrite <- E. change (rs r) with (csrc (v, lc, rs r)). apply in_map, Y. }
    assert (Ing : forall r l, In r l -> In r (grp (rs r) l)) by (intros r l R; unfold grp; apply filter_In; split; [exact R|]; destruct (d1 (rs r) (rs r)); congruence).
    assert (Fx : forall v lc s r, In (v, lc, s) cs -> In r f -> rs r = s -> In (rt r, rn r) v). { intros v lc s r H R E. rewrite <- (Gf v lc s H). apply in_map_iff. exists r. split; [reflexivity|]. rewrite <- E. apply Ing, R. }
    assert (Dr : forall r, In r f -> ~ kept (concat outs) r -> forall v lc kp dr d, In (v, lc, rs r) cs -> Permutation v (kp ++ dr) -> grp (rs r) (concat outs) = map (outrec (rs r) d) kp -> In (rt r, rn r) dr).
    { intros r R K v lc kp dr d H P E. pose proof (Fx _ _ _ _ H R eq_refl) as X. apply (Permutation_in _ P), in_app_or in X as [X|X]; [|exact X]. exfalso. apply K. assert (Y : In (outrec (rs r) d (rt r, rn r)) (grp (rs r) (concat outs))) by (rewrite E; apply in_map, X). unfold grp in Y. apply filter_In in Y as [Y _]. exists (outrec (rs r) d (rt r, rn r)). auto. }
    split; [|split; [|split; [|split; [|split; [|split]]]]].
    + apply nodup_grp. intros s. destruct (Main s) as [(v & lc & kp & dr & d & H & P & E & _)|[E _]]; rewrite E; [|constructor]. rewrite map_map. cbn. change (NoDup (map (fun x : K2 * lg => fst x) kp)). pose proof (NDv _ _ _ H) as ND. apply (Permutation_NoDup (Permutation_map fst P)) in ND. rewrite map_app in ND. apply NoDup_app_remove_r in ND. exact ND.
    + intros r R. pose proof (Ing _ _ R) as Q. destruct (Main (rs r)) as [(v & lc & kp & dr & d & H & P & E & _)|[E _]]; rewrite E in Q; [|destruct Q]. apply in_map_iff in Q as (x & Ex & X). destruct (Hv v lc (rs r) x H) as (r1 & R1 & R2 & R3 & R4); [apply (Permutation_in _ (Permutation_sym P)), in_or_app; left; exact X|]. exists r1. rewrite <- Ex. cbn. auto.
    + intros s Hn. unfold number. fold (grp s (concat outs)). destruct (Main s) as [(v & lc & kp & dr & d & H & P & E & L & _)|[E _]]; rewrite E; [rewrite map_length; apply L, Hn|cbn; lia].
    + intros r R. pose proof (Ing _ _ R) as Q. destruct (Main (rs r)) as [(v & lc & kp & dr & d & H & P & E & L & C & _)|[E _]]; rewrite E in Q; [|destruct Q]. apply in_map_iff in Q as (x & Ex & X). unfold freq. rewrite (Mf _ _ _ H). specialize (C x X). rewrite <- Ex. exact C.
    + intros r R K. destruct (Main (rs r)) as [(v & lc & kp & dr & d & H & P & E & L & C & D & _)|[_ E]]; [|destruct (E r R eq_refl)]. specialize (D _ (Dr _ R K _ _ _ _ _ H P E)). unfold number. fold (grp (rs r) (concat outs)). rewrite E, map_length. unfold freq. rewrite (Mf _ _ _ H). exact D.
    + intros r r' R K R' Es. pose proof (Ing _ _ R') as Q. rewrite Es in Q. destruct (Main (rs r)) as [(v & lc & kp & dr & d & H & P & E & L & C & D & M & _)|[_ E]]; [|destruct (E r R eq_refl)]. rewrite E in Q. apply in_map_iff in Q as (x & Ex & X). specialize (M _ _ (Dr _ R K _ _ _ _ _ H P E) X). rewrite <- Ex. exact M.
    + intros r R. pose proof (Ing _ _ R) as Q. rewrite mass_grp. destruct (Main (rs r)) as [(v & lc & kp & dr & d & H & P & E & L & C & D & M & N)|[E _]]; rewrite E in Q; [|destruct Q]. rewrite E. apply in_map_iff in Q as (x & Ex & X). destruct N as [N1 N2]; [intros ->; destruct X|]. rewrite <- Ex at 1 2. cbn [outrec rd]. split; [exact N1|]. rewrite N2, sumf_map. reflexivity.
Qed.
End PR.

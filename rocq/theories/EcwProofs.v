From Coq Require Import Ascii String Arith ZArith List Bool Lia.
From Verif Require Import EditDistSpec EditDistModel EditDistProofs TextSpec TextModel EcSpec EcModel EcProofs EcwSpec EcwModel.
Import ListNotations.
Open Scope Z_scope.

(** ** list updates *)
Lemma set_at_len : forall A (l : list A) n v, (n < length l)%nat -> length (set_at n v l) = length l.
Proof. intros. unfold set_at. rewrite app_length, firstn_length. cbn [length]. rewrite skipn_length. lia. Qed.
Lemma set_at_same : forall A (l : list A) n v d, (n < length l)%nat -> nth n (set_at n v l) d = v.
Proof. intros. unfold set_at. rewrite app_nth2; rewrite firstn_length, Nat.min_l by lia; [|lia]. now rewrite Nat.sub_diag. Qed.
Lemma set_at_other : forall A (l : list A) n v d i, (n < length l)%nat -> i <> n -> nth i (set_at n v l) d = nth i l d.
Proof.
  intros A l. induction l as [|a l IH]; intros n v d i H NE; [simpl in H; lia|].
  destruct n as [|n], i as [|i]; try lia; try reflexivity. cbn. apply IH; [simpl in H; lia|lia].
Qed.
Lemma set_nth_at : forall n v l, set_nth n v l = set_at n v l.
Proof. reflexivity. Qed.
Lemma pad_len : forall n l, (length l <= n)%nat -> length (pad n l) = n.
Proof. intros. unfold pad. rewrite app_length, repeat_length. lia. Qed.
Lemma pad_nth : forall n l j, (j < length l)%nat -> nth j (pad n l) 0 = nth j l 0.
Proof. intros. unfold pad. now rewrite app_nth1. Qed.

Section EC.
Variables hc ic sc dc : Z.
Notation subst := (substitutionCost hc ic sc dc).
Notation psubst := (prefSubstitutionCost hc ic sc dc).

(** ** the local cell *)
Section LOCAL.
Variables (complete : bool) (w : str) (yV : list str).
Definition lsub (j : nat) : Z := if (Nat.eqb (S j) (length yV) && negb complete)%bool then psubst w (nth j yV []) else subst w (nth j yV []).
Lemma wcell_local : forall dm j, let r := wcell hc ic sc dc complete false [w] yV dm 1 (S j) in
  c_score r = Z.min (dm 0%nat j + lsub j) (Z.min (dm 0%nat (S j) + deletionCost dc w) (dm 1%nat j + insertionCost ic (nth j yV []))) /\
  ((c_op r = HIT_OP \/ c_op r = SUBST_OP) /\ c_score r = dm 0%nat j + lsub j \/
   (c_op r = DEL_OP \/ deletionCost dc w = 0) /\ c_score r = dm 0%nat (S j) + deletionCost dc w \/
   c_op r = INS_OP /\ c_score r = dm 1%nat j + insertionCost ic (nth j yV [])).
Proof.
  intros dm j. unfold wcell. cbn [nth andb]. fold (lsub j). cbv zeta. cbn [c_score].
  set (hs := if (str_eqb _ _ || _)%bool then HIT_OP else SUBST_OP).
  assert (HS : hs = HIT_OP \/ hs = SUBST_OP) by (unfold hs; destruct (_ || _)%bool; auto).
  destruct (Z.ltb_spec (dm 0%nat (S j) + deletionCost dc w) (dm 0%nat j + lsub j)); cbn [c_score];
  match goal with |- context [dm 1%nat j + ?u <? ?v] => destruct (Z.ltb_spec (dm 1%nat j + u) v) end; cbn [c_score c_op]; (split; [lia|]); auto.
  right. left. split; auto. destruct (Z.eqb_spec (deletionCost dc w) 0); auto.
Qed.
End LOCAL.

Lemma incr_loop_ok : forall complete w yV prev m start new ops, (1 <= start)%nat -> (start + m <= length new)%nat ->
  exists new' ops', incr_loop hc ic sc dc complete w yV prev (seq start m) new ops = (new', ops ++ ops') /\
    length new' = length new /\ length ops' = m /\ (forall j, (j < start)%nat -> nth j new' 0 = nth j new 0) /\
    forall j, (start <= j < start + m)%nat ->
      let r := wcell hc ic sc dc complete false [w] yV (fun i j => nth j (match i with O => prev | _ => new' end) 0) 1 j in
      nth j new' 0 = c_score r /\ nth (j - start) ops' NONE_OP = c_op r.
Proof.
  intros complete w yV prev m. induction m as [|m IH]; intros start new ops H1 H2.
  - exists new, []. cbn. rewrite app_nil_r. repeat split; auto; intros; lia.
  - cbn [seq incr_loop]. set (r0 := wcell hc ic sc dc complete false [w] yV _ 1 start).
    rewrite set_nth_at.
    destruct (IH (S start) (set_at start (c_score r0) new) (ops ++ [c_op r0])) as (new' & ops' & E & L & LO & K & R); [lia|rewrite set_at_len; lia|].
    rewrite E. exists new', (c_op r0 :: ops'). rewrite <- app_assoc. cbn [app]. rewrite set_at_len in L by lia.
    split; [reflexivity|]. split; [exact L|]. split; [cbn; lia|]. split.
    + intros j Hj. rewrite K by lia. apply set_at_other; lia.
    + intros j Hj. match goal with |- _ = c_score ?x /\ _ => set (r := x) end. destruct (Nat.eq_dec j start) as [->|NE].
      * assert (ER : r = r0).
        { apply (wcell_causal hc ic sc dc). intros i' j' Hi' Hj' Hn. destruct i' as [|i']; [reflexivity|].
          assert (j' < start)%nat by lia. rewrite K by lia. apply set_at_other; lia. }
        rewrite Nat.sub_diag. cbn [nth]. rewrite ER. split; [|reflexivity]. rewrite K by lia. apply set_at_same. lia.
      * destruct (R j) as [R1 R2]; [lia|]. split; [exact R1|].
        replace (j - start)%nat with (S (j - S start)) by lia. cbn [nth]. exact R2.
Qed.

(** ** distances as row recursions *)
Section DIST.
Variable p : list str.
Notation pw := (pref_words p).
Notation cpl := (pref_complete p).
Definition psub (j : nat) (w : str) : Z := if (Nat.eqb (S j) (length p) && negb cpl)%bool then psubst w (nth j pw []) else subst w (nth j pw []).
Definition pins (j : nat) : Z := insertionCost ic (nth j pw []).
Definition pins0 (j : nat) : Z := insertionCost ic (nth j p []).
Fixpoint row0 (ins : nat -> Z) (j : nat) : Z := match j with O => 0 | S j' => row0 ins j' + ins j' end.
Fixpoint drow (prev : nat -> Z) (w : str) (j : nat) : Z :=
  match j with
  | O => prev O + deletionCost dc w
  | S j' => Z.min (prev j' + psub j' w) (Z.min (prev (S j') + deletionCost dc w) (drow prev w j' + pins j'))
  end.
Definition D (ws : list str) : nat -> Z := fold_left drow ws (row0 pins0).
Definition Dc (ws : list str) : nat -> Z := fold_left drow ws (row0 pins).
Lemma D_snoc : forall ws w, D (ws ++ [w]) = drow (D ws) w.
Proof. intros. unfold D. now rewrite fold_left_app. Qed.
Lemma Dc_snoc : forall ws w, Dc (ws ++ [w]) = drow (Dc ws) w.
Proof. intros. unfold Dc. now rewrite fold_left_app. Qed.
End DIST.

Lemma drow_ext : forall p f g w j, (forall i, (i <= j)%nat -> f i = g i) -> drow p f w j = drow p g w j.
Proof.
  intros p f g w j. induction j as [|j IH]; intro H; cbn [drow]; [now rewrite H by lia|].
  rewrite (H j), (H (S j)), IH by (auto; lia). reflexivity.
Qed.

(** columns computed for one prefix are valid for another one that agrees so far *)
Lemma D_local : forall p q k, firstn k p = firstn k q -> (k < length p)%nat -> (k < length q)%nat -> forall ws j, (j <= k)%nat -> D p ws j = D q ws j.
Proof.
  intros p q k E Lp Lq.
  assert (N : forall j, (j < k)%nat -> nth j p [] = nth j q []).
  { intros j Hj. rewrite <- (firstn_skipn k p), <- (firstn_skipn k q), E. rewrite !app_nth1; auto; rewrite firstn_length; lia. }
  assert (PW : forall r j, (S j < length r)%nat -> nth j (pref_words r) [] = nth j r []).
  { intros r j H. unfold pref_words, set_last. destruct r as [|a r]; [simpl in H; lia|].
    assert (NE : a :: r <> []) by congruence. pose proof (removelast_len _ NE) as RL.
    rewrite app_nth1 by lia. rewrite (app_removelast_last (A:=str) [] NE) at 2. rewrite app_nth1 by lia. reflexivity. }
  assert (SUB : forall j w, (j < k)%nat -> psub p j w = psub q j w).
  { intros j w Hj. unfold psub. destruct (Nat.eqb_spec (S j) (length p)); [lia|]. destruct (Nat.eqb_spec (S j) (length q)); [lia|]. cbn [andb].
    rewrite !PW by lia. now rewrite N. }
  assert (INS : forall j, (j < k)%nat -> pins p j = pins q j) by (intros j Hj; unfold pins; rewrite !PW by lia; now rewrite N).
  assert (R : forall f g w j, (forall i, (i <= j)%nat -> f i = g i) -> (j <= k)%nat -> drow p f w j = drow q g w j).
  { intros f g w j. induction j as [|j IH]; intros H Hj; cbn [drow]; [now rewrite H by lia|].
    rewrite (H j), (H (S j)), IH by (auto; lia). rewrite SUB, INS by lia. reflexivity. }
  intros ws. induction ws as [|w ws IH] using rev_ind; intros j Hj.
  - unfold D. cbn [fold_left]. induction j as [|j IHj]; [reflexivity|]. cbn [row0]. rewrite IHj by lia. unfold pins0. now rewrite N by lia.
  - rewrite !D_snoc. apply R; auto. intros i Hi. apply IH. lia.
Qed.
Lemma D_col0 : forall p q ws, D p ws 0 = D q ws 0.
Proof. intros p q ws. induction ws as [|w ws IH] using rev_ind; [reflexivity|]. rewrite !D_snoc. cbn [drow]. now rewrite IH. Qed.

(** ** the row recursion computes cheapest scripts *)
Lemma firstn_tgy : forall o y j, (j <= length y)%nat -> firstn j (tgy o y) = tgy (o && (j =? length y)%nat) (firstn j y).
Proof.
  intros o y. induction y as [|b y IH]; intros [|j] H; try (simpl in H; lia); try reflexivity.
  cbn [length] in *. cbn [firstn tgy]. rewrite IH by lia. f_equal.
  destruct y as [|c y]; destruct j as [|j]; try (simpl in H; lia); destruct o; cbn; rewrite ?Bool.andb_false_r; reflexivity.
Qed.

Section MSPEC.
Hypothesis DC : 0 < dc.
Variables (complete : bool) (x y : list str) (F : dmat).
Hypothesis REC : forall i j, (i <= length x)%nat -> (j <= length y)%nat -> F i j = c_score (wcell hc ic sc dc complete false x y F i j).
Hypothesis LOK : last_ok (negb complete) y.

Lemma last_ok_firstn : forall j, (j <= length y)%nat -> last_ok (negb complete && (j =? length y)%nat) (firstn j y).
Proof.
  intros j Hj O N. apply andb_true_iff in O. destruct O as [O E]. apply Nat.eqb_eq in E. subst j. rewrite firstn_all in *. now apply LOK.
Qed.

Lemma M_spec : forall i j, (i <= length x)%nat -> (j <= length y)%nat ->
  wcheapest hc ic sc dc (negb complete && (j =? length y)%nat) (firstn i x) (firstn j y) (F i j).
Proof.
  intros i j Hi Hj.
  pose proof (REC' hc ic sc dc complete false x y F REC (fun _ _ => DEL_OP)) as R.
  assert (DL : forall j a, cdel dc false y j a = tde dc a) by reflexivity.
  split.
  - destruct (trace_ok (teq) teq_ok (tdg hc ic sc dc) (tdg hc ic sc dc) (tin ic) (tde dc) t0 _ _ _ _ F R DL (fun _ _ => eq_refl) (S (i + j)) i j []) as (ops & _ & SC);
      rewrite ?tgx_len, ?tgy_len; try lia.
    exists ops. rewrite tgx_firstn, firstn_tgy in SC by auto. apply t2w; auto; [now apply last_ok_firstn|].
    replace (map relabel ops) with ops; [exact SC|].
    clear - SC. set (tx := tgx (firstn i x)) in *. set (ty := tgy _ _) in *.
    assert (NE : forall a b, In a tx -> In b ty -> a <> b) by (intros; eapply tagged_ne; eauto). clearbody tx ty.
    induction SC; cbn [map relabel]; try (f_equal; apply IHSC; intros; apply NE; cbn; auto); auto.
    exfalso. apply (NE a b); cbn; auto.
  - intros ops c W. apply w2t in W; auto; [|now apply last_ok_firstn].
    rewrite <- tgx_firstn, <- firstn_tgy in W by auto.
    pose proof (lower teq teq_ok (tdg hc ic sc dc) (tdg hc ic sc dc) (tin ic) (tde dc) t0 _ _ _ _ F R (fun j a => Z.eq_le_incl _ _ (DL j a)) _ _ _ _ W [] []
      (skipn i (tgx x)) (skipn j (tgy (negb complete) y))) as LB.
    cbn [app] in LB. rewrite !firstn_skipn in LB. specialize (LB eq_refl eq_refl). cbn [length plus] in LB.
    rewrite !firstn_length, tgx_len, tgy_len, !Nat.min_l in LB by auto.
    assert (F0 : F 0%nat 0%nat = 0) by (rewrite REC by lia; reflexivity). lia.
Qed.
End MSPEC.

Lemma wcell_score : forall complete x y dm i j,
  c_score (wcell hc ic sc dc complete false x y dm (S i) (S j)) =
  Z.min (dm i j + lsub complete (nth i x []) y j) (Z.min (dm i (S j) + deletionCost dc (nth i x [])) (dm (S i) j + insertionCost ic (nth j y []))).
Proof.
  intros complete x y dm i j. unfold wcell. cbn [andb]. fold (lsub complete (nth i x []) y j). cbv zeta. cbn [c_score].
  destruct (Z.ltb_spec (dm i (S j) + deletionCost dc (nth i x [])) (dm i j + lsub complete (nth i x []) y j)); cbn [c_score];
  match goal with |- context [dm (S i) j + ?u <? ?v] => destruct (Z.ltb_spec (dm (S i) j + u) v) end; cbn [c_score c_op]; lia.
Qed.

Lemma lsub_psub : forall p w j, lsub (pref_complete p) w (pref_words p) j = psub p j w.
Proof. intros. unfold lsub, psub. now rewrite pref_words_len. Qed.

Theorem Dc_cheapest : 0 < dc -> forall (p ws : list str) j, p <> [] -> last p [] <> [] -> (j <= length p)%nat ->
  wcheapest hc ic sc dc (open_of p && (j =? length p)%nat) ws (firstn j (pref_words p)) (Dc p ws j).
Proof.
  intros DC p ws j N LN Hj. set (F := fun i j => Dc p (firstn i ws) j).
  pose proof (M_spec DC (pref_complete p) ws (pref_words p) F) as M.
  assert (H : wcheapest hc ic sc dc (negb (pref_complete p) && (j =? length (pref_words p))%nat) (firstn (length ws) ws) (firstn j (pref_words p)) (F (length ws) j)).
  { apply M; [|now apply last_ok_pref|lia|rewrite pref_words_len; lia].
    intros i k Hi Hk. rewrite pref_words_len in Hk. unfold F at 1. destruct i as [|i], k as [|k].
    - reflexivity.
    - reflexivity.
    - cbn [wcell c_score]. rewrite (firstn_snoc (A:=str) [] i ws) by lia. rewrite Dc_snoc. reflexivity.
    - rewrite wcell_score, lsub_psub. unfold F. rewrite (firstn_snoc (A:=str) [] i ws) by lia. rewrite Dc_snoc. cbn [drow]. reflexivity. }
  unfold F in H. rewrite firstn_all, pref_words_len in H. exact H.
Qed.

Lemma drow_del : forall p f w j, drow p f w j <= f j + deletionCost dc w.
Proof. intros p f w [|j]; cbn [drow]; lia. Qed.

Lemma pins_last : forall p j, (S j < length p)%nat \/ open_of p = true -> pins0 p j = pins p j.
Proof.
  intros p j [H|H]; unfold pins0, pins.
  - unfold pref_words, set_last. destruct p as [|a r]; [simpl in H; lia|].
    assert (NE : a :: r <> []) by congruence. pose proof (removelast_len _ NE) as RL.
    rewrite (app_nth1 (removelast _)) by lia. rewrite (app_removelast_last (A:=str) [] NE) at 1. rewrite app_nth1 by lia. reflexivity.
  - destruct p as [|a r]; [discriminate|]. rewrite pref_words_open; auto. congruence.
Qed.
Lemma row0_last : forall p j, (j < length p)%nat \/ open_of p = true -> row0 (pins0 p) j = row0 (pins p) j.
Proof.
  intros p j. induction j as [|j IH]; intro H; [reflexivity|]. cbn [row0]. rewrite IH, pins_last; auto; destruct H; auto; left; lia.
Qed.
Lemma pins_le : 0 <= ic -> forall p j, pins p j <= pins0 p j.
Proof.
  intros IC p j. unfold pins, pins0, insertionCost. apply Z.mul_le_mono_nonneg_l; [auto|]. apply inj_le.
  destruct p as [|a r]; [destruct j; simpl; lia|].
  assert (NE : a :: r <> []) by congruence. pose proof (removelast_len _ NE) as RL.
  unfold pref_words, set_last.
  assert (EQ : nth j (a :: r) [] = nth j (removelast (a :: r) ++ [last (a :: r) []]) []) by (rewrite <- (app_removelast_last (A:=str) [] NE); reflexivity).
  rewrite EQ. clear EQ. destruct (Nat.lt_ge_cases j (length (removelast (a :: r)))).
  - rewrite !app_nth1 by auto. lia.
  - rewrite !app_nth2 by auto. destruct (j - length (removelast (a :: r)))%nat as [|k]; [|destruct k; simpl; lia]. cbn [nth].
    destruct (pref_complete _); [|lia]. unfold removeLastBlank. destruct (lastCharIsBlank _); [|lia]. rewrite firstn_length. lia.
Qed.

(** the first row charges the blank; one word later the difference has gone *)
Theorem D_clean : 0 <= ic -> forall (p ws : list str) j, (j <= length p)%nat -> ws <> [] \/ (j < length p)%nat \/ open_of p = true -> D p ws j = Dc p ws j.
Proof.
  intros IC p.
  assert (K : forall ws, (forall j, (j < length p)%nat \/ open_of p = true -> D p ws j = Dc p ws j) /\ (ws <> [] -> forall j, (j <= length p)%nat -> D p ws j = Dc p ws j) /\
               (forall j, (j <= length p)%nat -> Dc p ws j <= D p ws j)).
  { intro ws. induction ws as [|w ws (I1 & I2 & I3)] using rev_ind.
    - split; [|split].
      + intros j H. unfold D, Dc. cbn [fold_left]. now apply row0_last.
      + congruence.
      + intros j _. unfold D, Dc. cbn [fold_left]. induction j as [|j IHj]; cbn [row0]; [lia|]. pose proof (pins_le IC p j). lia.
    - assert (J1 : forall j, (j < length p)%nat \/ open_of p = true -> drow p (D p ws) w j = drow p (Dc p ws) w j).
      { intros j H. apply drow_ext. intros i Hi. apply I1. destruct H; auto. left. lia. }
      assert (J2 : forall j, (j <= length p)%nat -> drow p (D p ws) w j = drow p (Dc p ws) w j).
      { intros j Hj. destruct (Nat.lt_ge_cases j (length p)) as [Hl|Hl]; [apply J1; auto|].
        destruct ws as [|w0 ws0].
        - destruct j as [|j]; [destruct p; [|simpl in *; lia]; reflexivity|]. cbn [drow].
          pose proof (J1 j ltac:(lia)) as J. rewrite J. rewrite (I1 j) by lia.
          pose proof (drow_del p (Dc p []) w j) as DD. pose proof (I3 (S j) Hj) as GE.
          assert (RS : Dc p [] (S j) = Dc p [] j + pins p j) by reflexivity. lia.
        - apply drow_ext. intros i Hi. apply I2; [congruence|lia]. }
      rewrite D_snoc, Dc_snoc. split; [exact J1|]. split; [intros _; exact J2|]. intros j Hj. rewrite J2 by auto. lia. }
  intros ws j Hj [H|H]; destruct (K ws) as (K1 & K2 & _); auto.
Qed.
Theorem D_first_row_blank : forall p : list str, p <> [] -> pref_complete p = true -> D p [] (length p) = Dc p [] (length p) + ic.
Proof.
  intros p N C. unfold D, Dc. cbn [fold_left]. pose proof (removelast_len p N) as RL. rewrite RL, Nat.add_1_r. cbn [row0].
  rewrite row0_last by (left; lia). enough (E : pins0 p (length (removelast p)) = pins p (length (removelast p)) + ic) by lia.
  unfold pins, pins0, insertionCost, pref_words, set_last. rewrite C. destruct p as [|a r]; [congruence|]. 
  assert (EQ : nth (length (removelast (a :: r))) (a :: r) [] = last (a :: r) []).
  { rewrite (app_removelast_last (A:=str) [] N) at 2. rewrite app_nth2 by lia. rewrite Nat.sub_diag. reflexivity. }
  rewrite EQ. clear EQ. rewrite (app_nth2 (removelast (a :: r))) by lia. rewrite Nat.sub_diag. cbn [nth].
  unfold pref_complete in C. unfold removeLastBlank. rewrite C. unfold lastCharIsBlank in C. apply andb_true_iff in C. destruct C as [C _]. apply Nat.ltb_lt in C.
  rewrite firstn_length. rewrite Nat.min_l by lia. replace (Z.of_nat (length (last (a :: r) []))) with (Z.of_nat (length (last (a :: r) []) - 1) + 1); [lia|lia].
Qed.
End EC.

(** Word error rate and general text matcher. *)
From Coq Require Import Ascii String Arith ZArith QArith List Bool Lia Permutation Sorted.
From Verif Require Import TextSpec TextModel VocabSpec EditDistSpec EditDistModel EditDistProofs BleuSpec BleuModel BleuProofs EvalSpec EvalModel.
Import ListNotations.
Local Open Scope nat_scope.
Lemma skipn_S : forall (A : Type) (l : list A) j x t, skipn j l = x :: t -> skipn (S j) l = t.
Proof. induction l as [|a l IH]; intros [|j] x t H; try discriminate; [injection H as _ <-; reflexivity|]. cbn [skipn] in *. destruct l; [destruct j; discriminate|]. eapply IH; exact H. Qed.
(** ** edit distance *)
Definition weq (a b : str) : bool := if str_dec a b then true else false.
Lemma weq_ok : forall a b, weq a b = true <-> a = b.
Proof. intros a b. unfold weq. destruct (str_dec a b); split; congruence. Qed.
Definition D (x y : list str) : nat -> nat -> Z := ed_matrix weq (fun _ _ => 0%Z) (fun _ _ => 1%Z) (fun _ => 1%Z) (fun _ => 1%Z) [] x y.
Lemma D_row0 : forall x y j, j <= length y -> D x y 0 j = Z.of_nat j.
Proof.
  intros x y. induction j as [|j IH]; intros H; unfold D; rewrite ed_rec by lia; [reflexivity|]. cbn [cell_gen c_score]. fold (D x y). rewrite IH by lia. lia.
Qed.
Lemma D_col0 : forall x y i, i <= length x -> D x y i 0 = Z.of_nat i.
Proof.
  intros x y. induction i as [|i IH]; intros H; unfold D; rewrite ed_rec by lia; [reflexivity|]. cbn [cell_gen c_score]. fold (D x y). rewrite IH by lia. lia.
Qed.
Lemma D_cell : forall x y i j, i < length x -> j < length y ->
  D x y (S i) (S j) = Z.min (Z.min (D x y i (S j) + 1) (D x y (S i) j + 1)) (D x y i j + if str_dec (nth i x []) (nth j y []) then 0 else 1).
Proof.
  intros x y i j Hi Hj. unfold D at 1. rewrite ed_rec by lia. cbn [cell_gen]. fold (D x y). unfold weq. destruct (str_dec _ _); cbn [c_score c_pi c_pj c_op].
  - destruct (Z.ltb_spec (D x y i (S j) + 1) (D x y i j + 0)); cbn [c_score c_pi c_pj c_op]; match goal with |- context [Z.ltb ?a ?b] => destruct (Z.ltb_spec a b) end; cbn [c_score]; lia.
  - destruct (Z.ltb_spec (D x y i (S j) + 1) (D x y i j + 1)); cbn [c_score c_pi c_pj c_op]; match goal with |- context [Z.ltb ?a ?b] => destruct (Z.ltb_spec a b) end; cbn [c_score]; lia.
Qed.
Lemma row_ok : forall x y i, i < length x -> forall s2 j p ps c, skipn j y = s2 -> j + length s2 = length y -> Z.of_nat p = D x y i j -> Z.of_nat c = D x y (S i) j ->
  map Z.of_nat ps = map (D x y i) (seq (S j) (length s2)) -> map Z.of_nat (ed_row (nth i x []) s2 p ps c) = map (D x y (S i)) (seq (S j) (length s2)).
Proof.
  intros x y i Hi. induction s2 as [|w s2 IH]; intros j p ps c SK LE HP HC HPS; [destruct ps; reflexivity|]. cbn [length seq map] in HPS. destruct ps as [|q ps]; [discriminate|]. cbn [map] in HPS. injection HPS as HQ HPS. cbn [length] in LE.
  assert (NW : nth j y [] = w) by (rewrite <- (firstn_skipn j y), SK, app_nth2; rewrite firstn_length_le by lia; [now rewrite Nat.sub_diag|lia]).
  cbn [ed_row length seq map]. assert (CV : Z.of_nat (Nat.min (Nat.min (q + 1) (c + 1)) (p + (if str_dec (nth i x []) w then 0 else 1))) = D x y (S i) (S j)).
  { rewrite D_cell by lia. rewrite <- HP, <- HC, <- HQ, NW. destruct (str_dec _ _); lia. }
  f_equal; [exact CV|]. apply IH; [|lia|exact HQ|exact CV|exact HPS].
  eapply skipn_S; exact SK.
Qed.
Lemma rows_ok : forall x y s1 i prev, skipn i x = s1 -> i + length s1 = length x -> map Z.of_nat prev = map (D x y i) (seq 0 (S (length y))) ->
  map Z.of_nat (ed_rows i s1 y prev) = map (D x y (length x)) (seq 0 (S (length y))).
Proof.
  intros x y. induction s1 as [|w s1 IH]; intros i prev SK LE H; cbn [length] in LE; [replace (length x) with i by lia; exact H|]. cbn [ed_rows].
  assert (NW : nth i x [] = w) by (rewrite <- (firstn_skipn i x), SK, app_nth2; rewrite firstn_length_le by lia; [now rewrite Nat.sub_diag|lia]).
  apply IH; [eapply skipn_S; exact SK|lia|].
  destruct prev as [|p prev]; [discriminate|]. cbn [seq map] in H. injection H as HP HPS. cbn [hd tl seq map]. f_equal; [rewrite D_col0 by lia; lia|]. rewrite <- NW. apply row_ok; [lia|reflexivity|reflexivity|exact HP| |exact HPS]. rewrite D_col0 by lia. lia.
Qed.
Lemma ed_ok : forall x y, Z.of_nat (ed x y) = calculateEditDist weq (fun _ _ => 0%Z) (fun _ _ => 1%Z) (fun _ => 1%Z) (fun _ => 1%Z) [] x y.
Proof.
  intros x y. unfold ed. assert (H : map Z.of_nat (ed_rows 0 x y (seq 0 (length y + 1))) = map (D x y (length x)) (seq 0 (S (length y)))).
  { apply rows_ok; [reflexivity|reflexivity|]. rewrite Nat.add_1_r. apply map_ext_in. intros j J. apply in_seq in J. rewrite D_row0 by lia. reflexivity. }
  rewrite seq_S, map_app in H. cbn [map Nat.add] in H. destruct (ed_rows 0 x y (seq 0 (length y + 1))) as [|a l] eqn:E using rev_ind; [destruct (map (D x y (length x)) (seq 0 (length y))); discriminate|].
  rewrite map_app in H. cbn [map] in H. apply app_inj_tail in H as [_ H]. rewrite last_last. exact H.
Qed.
Theorem ed_edits : forall x y, edits x y (ed x y).
Proof. intros x y. unfold edits. rewrite ed_ok. apply ed_cheapest. exact weq_ok. Qed.
Lemma script_nonneg : forall ops (x y : list str) c, script (fun _ _ => 0%Z) (fun _ _ => 1%Z) (fun _ => 1%Z) (fun _ => 1%Z) ops x y c -> (0 <= c)%Z /\ (c = 0%Z -> x = y).
Proof. intros ops x y c H. induction H as [|ops x y c a b E H [I1 I2]|ops x y c a b E H [I1 I2]|ops x y c b H [I1 I2]|ops x y c a H [I1 I2]]; split; try lia; auto. intros C. f_equal; [exact E|]. apply I2. lia. Qed.
Lemma script_refl : forall x : list str, exists ops, script (fun _ _ => 0%Z) (fun _ _ => 1%Z) (fun _ => 1%Z) (fun _ => 1%Z) ops x x 0.
Proof. induction x as [|a x [ops IH]]; [exists []; constructor|]. exists (HIT_OP :: ops). change 0%Z with (0 + 0)%Z. now apply (sc_hit (fun _ _ => 0%Z) (fun _ _ => 1%Z) (fun _ => 1%Z) (fun _ => 1%Z) ops x x 0%Z a a). Qed.
Lemma edits_zero : forall x y d, edits x y d -> (d = 0 <-> x = y).
Proof.
  intros x y d [[ops H] M]. split.
  - intros ->. eapply script_nonneg; [exact H|reflexivity].
  - intros ->. destruct (script_refl y) as [ops2 R]. apply M in R. lia.
Qed.
(** ** common n-grams *)
Definition gok (s1 s2 : list str) (g : ngm) : Prop :=
  1 <= g_sz g /\ g_sz g <= S (g_c2 g) /\ g_sz g <= S (g_r2 g) /\ g_c1 g = g_c2 g + 1 - g_sz g /\ g_r1 g = g_r2 g + 1 - g_sz g /\ g_c2 g < length s1 /\ g_r2 g < length s2 /\
  forall k, k < g_sz g -> nth (g_c1 g + k) s1 [] = nth (g_r1 g + k) s2 [].
(** q words ending before i and j agree *)
Definition run (s1 s2 : list str) (i j q : nat) : Prop := q <= i /\ q <= j /\ forall k, k < q -> nth (i - 1 - k) s1 [] = nth (j - 1 - k) s2 [].
Lemma gtm_row_ok : forall s1 s2 i w, i < length s1 -> nth i s1 [] = w -> forall t j p ps row l, skipn j s2 = t -> j + length t = length s2 ->
  match p with None => True | Some q => run s1 s2 i j q end ->
  (forall k q, nth_error ps k = Some q -> run s1 s2 i (S j + k) q) -> length ps <= length t ->
  gtm_row w i j t p ps = (row, l) ->
  length row = length t /\ (forall k q, nth_error row k = Some q -> run s1 s2 (S i) (S (j + k)) q) /\ Forall (gok s1 s2) l /\
  (forall k, j <= k < length s2 -> nth k s2 [] = w -> In (mkngm 1 i i k k) l).
Proof.
  intros s1 s2 i w Hi HW. induction t as [|x t IH]; intros j p ps row l SK LE HP HPS LP H; cbn [length] in LE.
  - injection H as <- <-. split; [reflexivity|]. split; [intros [|k] q E; discriminate|]. split; [constructor|]. intros k K. lia.
  - assert (NW : nth j s2 [] = x) by (rewrite <- (firstn_skipn j s2), SK, app_nth2; rewrite firstn_length_le by lia; [now rewrite Nat.sub_diag|lia]).
    cbn [gtm_row] in H. set (c := if str_dec w x then match p with None => 1 | Some q => 1 + q end else 0) in *. destruct (gtm_row w i (S j) t (match ps with [] => None | q :: _ => Some q end) (tl ps)) as [row1 l1] eqn:R. injection H as <- <-.
    assert (CR : run s1 s2 (S i) (S j) c).
    { unfold c. destruct (str_dec w x) as [E|N]; [|split; [lia|split; [lia|intros k K; lia]]]. destruct p as [q|].
      - destruct HP as (Q1 & Q2 & Q3). split; [lia|]. split; [lia|]. intros [|k] K; [replace (S i - 1 - 0) with i by lia; replace (S j - 1 - 0) with j by lia; transitivity w; [exact HW|transitivity x; [exact E|symmetry; exact NW]]|]. replace (S i - 1 - S k) with (i - 1 - k) by lia. replace (S j - 1 - S k) with (j - 1 - k) by lia. apply Q3. lia.
      - split; [lia|]. split; [lia|]. intros k K. replace (S i - 1 - k) with i by lia. replace (S j - 1 - k) with j by lia. transitivity w; [exact HW|transitivity x; [exact E|symmetry; exact NW]]. }
    destruct (IH (S j) (match ps with [] => None | q :: _ => Some q end) (tl ps) row1 l1 ltac:(eapply skipn_S; exact SK) ltac:(lia)) with (4 := R) as (P1 & P2 & P3 & P4).
    + destruct ps as [|q ps]; [exact I|]. specialize (HPS 0 q eq_refl). now rewrite Nat.add_0_r in HPS.
    + intros k q E. destruct ps as [|a ps]; [destruct k; discriminate|]. cbn [tl] in E. specialize (HPS (S k) q E). replace (S (S j) + k) with (S j + S k) by lia. exact HPS.
    + destruct ps; cbn [tl length] in *; lia.
    + refine (conj _ (conj _ (conj _ _))).
      * cbn [length]; now rewrite P1.
      * intros [|k] q E; cbn [nth_error] in E; [injection E as <-; rewrite Nat.add_0_r; exact CR|]. replace (j + S k) with (S j + k) by lia. now apply P2.
      * apply Forall_app. split; [|exact P3]. apply Forall_forall. intros g G. apply in_map_iff in G as (sz & <- & G). apply in_rev in G. apply in_seq in G. destruct CR as (C1 & C2 & C3). unfold gok. cbn [g_sz g_c1 g_c2 g_r1 g_r2]. do 5 (split; [lia|]). split; [exact Hi|]. split; [clear - LE; unfold str in *; lia|].
        intros k K. specialize (C3 (sz - 1 - k) ltac:(lia)). replace (S i - 1 - (sz - 1 - k)) with (i + 1 - sz + k) in C3 by lia. replace (S j - 1 - (sz - 1 - k)) with (j + 1 - sz + k) in C3 by lia. exact C3.
      * intros k K E. apply in_or_app. destruct (Nat.eq_dec k j) as [->|N]; [left|right; apply P4; [lia|exact E]]. rewrite NW in E. apply in_map_iff. exists 1. split; [f_equal; lia|]. apply -> in_rev. apply in_seq. unfold c. destruct (str_dec w x); [destruct p; lia|congruence].
Qed.
Ltac ulia := unfold str in *; lia.
Lemma gtm_rows_ok : forall s1 s2 t i prev, skipn i s1 = t -> i + length t = length s1 -> (forall k q, nth_error prev k = Some q -> run s1 s2 i (S k) q) -> length prev <= length s2 ->
  Forall (gok s1 s2) (gtm_rows i t s2 prev) /\ forall a b, i <= a < length s1 -> b < length s2 -> nth a s1 [] = nth b s2 [] -> In (mkngm 1 a a b b) (gtm_rows i t s2 prev).
Proof.
  intros s1 s2. induction t as [|w t IH]; intros i prev SK LE HP LP; cbn [length] in LE; [split; [constructor|intros a b A; ulia]|]. cbn [gtm_rows].
  assert (NW : nth i s1 [] = w) by (rewrite <- (firstn_skipn i s1), SK, app_nth2; rewrite firstn_length_le by ulia; [now rewrite Nat.sub_diag|ulia]).
  destruct (gtm_row w i 0 s2 None prev) as [row l] eqn:R. destruct (gtm_row_ok s1 s2 i w ltac:(ulia) NW s2 0 None prev row l eq_refl eq_refl I HP LP R) as (P1 & P2 & P3 & P4).
  destruct (IH (S i) row) as [Q1 Q2]; [eapply skipn_S; exact SK|ulia|exact P2|ulia|]. split; [apply Forall_app; now split|].
  intros a b A B E. apply in_or_app. destruct (Nat.eq_dec a i) as [->|N]; [left|right; apply Q2; [ulia|exact B|exact E]]. apply P4; [ulia|congruence].
Qed.

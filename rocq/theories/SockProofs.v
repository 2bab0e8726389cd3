From Coq Require Import NArith ZArith List Bool Lia Arith.
From Verif Require Import SockSpec SockModel.
Import ListNotations.

Lemma u32_bytes : forall u, (u < 2^32)%N ->
  (16777216 * ((u / 16777216) mod 256) + 65536 * ((u / 65536) mod 256) + 256 * ((u / 256) mod 256) + u mod 256 = u)%N.
Proof.
  intros x L.
  assert (A := N.div_mod x 256 ltac:(lia)). assert (B := N.div_mod (x/256) 256 ltac:(lia)).
  assert (C := N.div_mod (x/65536) 256 ltac:(lia)).
  replace (x / 65536)%N with (x / 256 / 256)%N in * by (rewrite N.div_div by lia; reflexivity).
  replace (x / 16777216)%N with (x / 256 / 256 / 256)%N in * by (rewrite !N.div_div by lia; reflexivity).
  assert (D : (x / 256 / 256 / 256 < 256)%N). { rewrite !N.div_div by lia. apply N.div_lt_upper_bound; [lia|]. exact L. }
  rewrite (N.mod_small (x / 256 / 256 / 256) 256) by auto. lia.
Qed.
Lemma be_length : forall i, length (be32 i) = 4.
Proof. reflexivity. Qed.
Lemma recv_be : forall i d rest, (-2^31 <= i < 2^31)%Z -> 4 <= d -> recvInt d (be32 i ++ rest) = Some (i, rest).
Proof.
  intros i d rest R D. unfold recvInt, sys_recv. replace (Nat.min 4 d) with 4 by lia. unfold be32. cbn [app firstn skipn]. f_equal. f_equal.
  unfold int_of. assert (M := Z.mod_pos_bound i (2^32) ltac:(lia)). rewrite u32_bytes by lia. rewrite Z2N.id by lia.
  destruct (Z.ltb_spec (i mod 2^32) (2^31)) as [L|L].
  - destruct (Z.lt_ge_cases i 0).
    + exfalso. replace (i mod 2^32)%Z with (i + 2^32)%Z in L; [lia|]. rewrite <- (Z.mod_small (i + 2^32) (2^32)) by lia. rewrite <- Z.add_mod_idemp_r, Z.mod_same, Z.add_0_r by lia. reflexivity.
    + apply Z.mod_small. lia.
  - destruct (Z.lt_ge_cases i 0).
    + replace (i mod 2^32)%Z with (i + 2^32)%Z; [lia|]. rewrite <- (Z.mod_small (i + 2^32) (2^32)) by lia. rewrite <- Z.add_mod_idemp_r, Z.mod_same, Z.add_0_r by lia. reflexivity.
    + rewrite Z.mod_small in L by lia. lia.
Qed.
Lemma cbytes_id : forall s, Forall (fun b => 0 < b < 256)%N s -> cbytes s = s.
Proof. induction 1; simpl; auto. destruct (N.eqb_spec x 0); [lia|]. now rewrite IHForall. Qed.
Lemma cbytes_short : forall s, length (cbytes s) <= length s.
Proof. induction s as [|b s IH]; simpl; auto. destruct (b =? 0)%N; simpl; lia. Qed.
Lemma writeStr_full : forall s, writeStr s 4 (Z.of_nat (length (cbytes s))) =
  Some (be32 (Z.of_nat (length (cbytes s))) ++ cbytes s, (4 + Z.of_nat (length (cbytes s)))%Z).
Proof.
  intro s. unfold writeStr. remember (cbytes s) as c. unfold writeInt. simpl (4 =? -1)%Z. cbv iota.
  assert (E : sys_write (be32 (Z.of_nat (length c))) 4 = be32 (Z.of_nat (length c))) by reflexivity. rewrite E.
  destruct (Nat.ltb_spec 0 (length c)) as [L|L].
  - destruct (Z.eqb_spec (4 + Z.of_nat (length c)) (-1)); [lia|]. unfold sys_write.
    destruct (Z.ltb_spec (Z.of_nat (length c)) 0); [lia|]. now rewrite Nat2Z.id, firstn_all.
  - destruct c; [now rewrite app_nil_r|simpl in L; lia].
Qed.
Lemma recv_str : forall s d1 d2 rest, Forall (fun b => 0 < b < 256)%N s -> (Z.of_nat (length s) < 2^31)%Z -> 4 <= d1 -> length s <= d2 ->
  recvStlStr d1 d2 (be32 (Z.of_nat (length s)) ++ s ++ rest) = Some (length s, s, rest).
Proof.
  intros s d1 d2 rest F L D1 D2. unfold recvStlStr. rewrite recv_be by lia.
  destruct (Z.ltb_spec (Z.of_nat (length s)) 0); [lia|]. destruct (Z.eqb_spec (Z.of_nat (length s)) 0).
  - destruct s; [reflexivity|simpl in *; lia].
  - unfold sys_recv. rewrite Nat2Z.id. replace (Nat.min (length s) d2) with (length s) by lia.
    rewrite firstn_app, Nat.sub_diag, firstn_all, skipn_app, Nat.sub_diag, skipn_all. simpl. rewrite app_nil_r, cbytes_id by auto. reflexivity.
Qed.
Lemma roundtrip : forall ms rest, Forall msg_ok ms ->
  exists wire, send_all ms = Some wire /\ receive_all ms (wire ++ rest) = Some (ms, rest).
Proof.
  induction ms as [|m ms IH]; intros rest O; [exists []; split; reflexivity|]. inversion O; subst. destruct (IH rest H2) as (w & E & R).
  destruct m as [z|s]; simpl in H1.
  - exists (be32 z ++ w). cbn [send_all send]. rewrite E. split; [reflexivity|]. cbn [receive_all receive]. rewrite <- app_assoc, recv_be; auto.
    2:{ rewrite app_length, be_length. lia. } cbn [option_map fst snd]. now rewrite R.
  - destruct H1 as (F & L). exists ((be32 (Z.of_nat (length s)) ++ s) ++ w). cbn [send_all send]. rewrite E, writeStr_full, cbytes_id by auto. split; [reflexivity|].
    cbn [receive_all receive]. rewrite <- !app_assoc, recv_str; auto; try (rewrite !app_length, be_length; lia). cbn [option_map fst snd]. now rewrite R.
Qed.
Lemma fragmented : forall s d1 m rest, Forall (fun b => 0 < b < 256)%N s -> (Z.of_nat (length s) < 2^31)%Z -> 4 <= d1 -> m < length s ->
  recvStlStr d1 m (be32 (Z.of_nat (length s)) ++ s ++ rest) = Some (m, firstn m s, skipn m s ++ rest).
Proof.
  intros s d1 m rest F L D1 M. unfold recvStlStr. rewrite recv_be by lia.
  destruct (Z.ltb_spec (Z.of_nat (length s)) 0); [lia|]. destruct (Z.eqb_spec (Z.of_nat (length s)) 0); [lia|].
  unfold sys_recv. rewrite Nat2Z.id. replace (Nat.min (length s) m) with m by lia.
  rewrite firstn_app, skipn_app. replace (m - length s) with 0 by lia. simpl. rewrite app_nil_r, firstn_length.
  rewrite cbytes_id. { repeat f_equal. lia. }
  apply Forall_forall. intros x I. rewrite Forall_forall in F. apply F. rewrite <- (firstn_skipn m s). apply in_or_app. auto.
Qed.
Lemma truncated_at_zero : forall a b, Forall (fun x => 0 < x < 256)%N a -> send (MStr (a ++ 0%N :: b)) = send (MStr a).
Proof.
  intros. unfold send. replace (cbytes (a ++ 0%N :: b)) with (cbytes a). { unfold writeStr. replace (cbytes (a ++ 0%N :: b)) with (cbytes a); [reflexivity|].
  induction H; simpl; auto. destruct (N.eqb_spec x 0); [lia|]. now rewrite <- IHForall. }
  induction H; simpl; auto. destruct (N.eqb_spec x 0); [lia|]. now rewrite <- IHForall.
Qed.
Lemma failure_unnoticed : forall s, cbytes s <> [] -> writeStr s 4 (-1) = Some (be32 (Z.of_nat (length (cbytes s))), 3%Z).
Proof.
  intros s H. unfold writeStr, writeInt. simpl (4 =? -1)%Z. cbv iota. destruct (cbytes s) as [|x c] eqn:E; [congruence|].
  simpl (0 <? _). cbv iota. simpl (4 + -1)%Z. simpl (3 =? -1)%Z. cbv iota. rewrite app_nil_r. reflexivity.
Qed.

From Coq Require Import List Arith Bool Lia.
From Verif Require Import BleuSpec BleuModel.
Import ListNotations.
Section S.
Variable A : Type.
Variable eqd : forall x y : A, {x = y} + {x <> y}.
Notation occ := (occ eqd). Notation geqd := (geqd eqd). Notation common := (common eqd).

Lemma ngrams_length : forall n (s : list A), length (ngrams n s) = length s + 1 - n.
Proof.
  induction s as [|x s IH]; cbn [ngrams length].
  - destruct n; reflexivity.
  - destruct (Nat.ltb_spec (S (length s)) n); cbn [length]; [lia|]. rewrite IH. lia.
Qed.
Lemma ngrams_nth : forall n (s : list A) i, i + n <= length s -> nth_error (ngrams n s) i = Some (firstn n (skipn i s)).
Proof.
  induction s as [|x s IH]; intros i H; cbn [length] in H.
  - assert (i = 0) by lia. assert (n = 0) by lia. subst. reflexivity.
  - cbn [ngrams]. destruct (Nat.ltb_spec (length (x :: s)) n) as [L|L]; [cbn [length] in L; lia|]. destruct i as [|i]; [reflexivity|]. cbn [nth_error skipn]. apply IH. lia.
Qed.
Definition total (n : nat) (s : list A) : nat := if length s <? n then 0 else length s - n + 1.
Lemma total_length : forall n s, total n s = length (ngrams n s).
Proof. intros. rewrite ngrams_length. unfold total. destruct (Nat.ltb_spec (length s) n); lia. Qed.

Lemma skipn_nth : forall B (s : list B) i a, nth_error s i = Some a -> skipn i s = a :: skipn (S i) s.
Proof. induction s as [|x s IH]; intros [|i] a H; try discriminate; [inversion H; reflexivity|]. cbn [skipn nth_error] in *. now apply IH. Qed.
Lemma match_from_spec : forall sys ref n i j k, i + k + n <= length sys -> j + k + n <= length ref ->
  match_from A eqd sys ref i j k n = Some (if geqd (firstn n (skipn (i + k) sys)) (firstn n (skipn (j + k) ref)) then true else false).
Proof.
  induction n as [|n IH]; intros i j k Hs Hr; cbn [match_from].
  - cbn [firstn]. destruct (geqd [] []); [reflexivity|congruence].
  - destruct (nth_error sys (i + k)) as [a|] eqn:Ea; [|apply nth_error_None in Ea; lia]. destruct (nth_error ref (j + k)) as [b|] eqn:Eb; [|apply nth_error_None in Eb; lia].
    rewrite (skipn_nth _ _ _ _ Ea), (skipn_nth _ _ _ _ Eb). cbn [firstn]. destruct (eqd a b) as [->|N].
    + rewrite IH by lia. replace (i + S k) with (S (i + k)) by lia. replace (j + S k) with (S (j + k)) by lia.
      destruct (geqd (firstn n (skipn (S (i + k)) sys)) (firstn n (skipn (S (j + k)) ref))) as [E|E].
      * rewrite E. destruct (geqd _ _); [reflexivity|congruence].
      * destruct (geqd (b :: _) (b :: _)) as [E2|]; [|reflexivity]. inversion E2. contradiction.
    + destruct (geqd (a :: _) (b :: _)) as [E2|]; [|reflexivity]. inversion E2. contradiction.
Qed.

(** unmatched reference n-grams *)
Fixpoint unm (G : list (list A)) (fl : list bool) : list (list A) :=
  match G, fl with g :: G', b :: fl' => (if b then [] else [g]) ++ unm G' fl' | _, _ => [] end.
Lemma occ_nil : forall g, occ g [] = 0. Proof. reflexivity. Qed.
Lemma occ_cons : forall g x l, occ g (x :: l) = (if geqd x g then 1 else 0) + occ g l.
Proof. intros. unfold BleuSpec.occ. simpl. destruct (geqd x g); reflexivity. Qed.
Lemma occ_app : forall g a b, occ g (a ++ b) = occ g a + occ g b.
Proof. intros. unfold BleuSpec.occ. apply count_occ_app. Qed.
Lemma loop_j_spec : forall sys ref n i fl j, i + n <= length sys -> j + length fl = length (ngrams n ref) ->
  exists b fl', loop_j A eqd sys ref n i j fl = Some (b, fl') /\ length fl' = length fl /\
    let g := firstn n (skipn i sys) in let G := skipn j (ngrams n ref) in
    (b = true <-> occ g (unm G fl) <> 0) /\
    forall x, occ x (unm G fl') = if b then (if geqd g x then occ x (unm G fl) - 1 else occ x (unm G fl)) else occ x (unm G fl).
Proof.
  intros sys ref n i. induction fl as [|m fl IH]; intros j Hs Hj; cbn [loop_j].
  - exists false, []. split; [reflexivity|]. split; [reflexivity|]. cbv zeta. assert (Z : unm (skipn j (ngrams n ref)) [] = []) by (destruct (skipn j (ngrams n ref)); reflexivity). rewrite Z, occ_nil. split; [split; [discriminate|congruence]|reflexivity].
  - cbn [length] in Hj. pose proof (ngrams_length n ref) as L. assert (LR : j + n <= length ref) by lia.
    pose proof (match_from_spec sys ref n i j 0 ltac:(lia) ltac:(lia)) as MF. rewrite !Nat.add_0_r in MF. rewrite MF. clear MF.
    assert (EG : skipn j (ngrams n ref) = firstn n (skipn j ref) :: skipn (S j) (ngrams n ref)).
    { apply skipn_nth, ngrams_nth, LR. }
    cbv zeta. rewrite EG. set (g := firstn n (skipn i sys)) in *. set (gr := firstn n (skipn j ref)) in *. set (G := skipn (S j) (ngrams n ref)) in *.
    destruct (IH (S j) Hs ltac:(lia)) as (b & fl' & E & LL & B & C). cbv zeta in B, C. fold g in B, C. fold G in B, C.
    destruct (geqd g gr) as [Q|Q]; [destruct m|]; cbn [andb negb].
    + rewrite E. exists b, (true :: fl'). split; [reflexivity|]. split; [simpl; lia|]. cbn [unm app]. auto.
    + exists true, (true :: fl). split; [reflexivity|]. split; [reflexivity|]. cbn [unm app]. split.
      * rewrite occ_cons. destruct (geqd gr g); [|congruence]. split; [lia|reflexivity].
      * intro x. rewrite occ_cons. rewrite <- Q. destruct (geqd g x); lia.
    + rewrite E. exists b, (m :: fl'). split; [reflexivity|]. split; [simpl; lia|]. cbn [unm]. destruct m; cbn [app]; [auto|]. split.
      * rewrite occ_cons. destruct (geqd gr g); [congruence|]. simpl. exact B.
      * intro x. rewrite !occ_cons, C. destruct b; [|reflexivity]. destruct (geqd g x) as [->|]; [|reflexivity]. destruct (geqd gr x); [congruence|reflexivity].
Qed.

(** sums *)
Lemma sum_ext : forall (f h : list A -> nat) U, (forall x, In x U -> f x = h x) -> sum (map f U) = sum (map h U).
Proof. induction U as [|u U IH]; intro H; simpl; auto. rewrite H by (simpl; auto). rewrite IH; auto. intros; apply H; simpl; auto. Qed.
Lemma sum_bump : forall (f h : list A -> nat) U g, NoDup U -> In g U -> f g = S (h g) -> (forall x, x <> g -> f x = h x) -> sum (map f U) = S (sum (map h U)).
Proof.
  induction U as [|u U IH]; intros g ND I E O; [destruct I|]. inversion ND; subst. simpl. destruct (geqd u g) as [->|N].
  - rewrite E. rewrite (sum_ext f h U); [lia|]. intros x Ix. apply O. congruence.
  - destruct I as [I|I]; [contradiction|]. rewrite (IH g); auto. rewrite (O u N). lia.
Qed.
Lemma sum_same : forall (f h : list A -> nat) U, (forall x, f x = h x) -> sum (map f U) = sum (map h U).
Proof. intros. apply sum_ext. auto. Qed.

Lemma loop_i_spec : forall sys ref n U todo i fl prec, length fl = length (ngrams n ref) -> i + todo = length (ngrams n sys) -> NoDup U -> incl (skipn i (ngrams n sys)) U ->
  loop_i A eqd sys ref n todo i fl prec = Some (prec + sum (map (fun g => Nat.min (occ g (skipn i (ngrams n sys))) (occ g (unm (ngrams n ref) fl))) U)).
Proof.
  intros sys ref n U. induction todo as [|t IH]; intros i fl prec Hf Hi ND IN; cbn [loop_i].
  - rewrite skipn_all2 by lia. f_equal. replace (sum _) with 0; [lia|]. symmetry. clear. induction U; simpl; auto.
  - pose proof (ngrams_length n sys) as L. assert (LS : i + n <= length sys) by lia.
    destruct (loop_j_spec sys ref n i fl 0 LS Hf) as (b & fl' & E & LL & B & C). cbv zeta in B, C. cbn [skipn] in B, C. rewrite E.
    assert (EG : skipn i (ngrams n sys) = firstn n (skipn i sys) :: skipn (S i) (ngrams n sys)).
    { apply skipn_nth, ngrams_nth, LS. }
    rewrite IH; [|lia|lia|auto|]. 2:{ intros x I. apply IN. rewrite EG. right. exact I. }
    f_equal. rewrite EG in *. set (g := firstn n (skipn i sys)) in *. set (R := skipn (S i) (ngrams n sys)) in *.
    assert (Ig : In g U) by (apply IN; simpl; auto).
    destruct b.
    + assert (B' : occ g (unm (ngrams n ref) fl) <> 0) by (now apply B).
      rewrite (sum_bump (fun x => Nat.min (occ x (g :: R)) (occ x (unm (ngrams n ref) fl))) (fun x => Nat.min (occ x R) (occ x (unm (ngrams n ref) fl'))) U g); auto; [lia| |].
      * rewrite occ_cons, C. destruct (geqd g g); [lia|congruence].
      * intros x N. rewrite occ_cons, C. destruct (geqd g x); [congruence|reflexivity].
    + rewrite (sum_same (fun x => Nat.min (occ x (g :: R)) (occ x (unm (ngrams n ref) fl))) (fun x => Nat.min (occ x R) (occ x (unm (ngrams n ref) fl'))) U); [lia|].
      intro x. rewrite occ_cons, C. destruct (geqd g x) as [<-|]; [|reflexivity].
      destruct (Nat.eq_dec (occ g (unm (ngrams n ref) fl)) 0) as [Z|Z]; [lia|]. apply B in Z. discriminate.
Qed.
Lemma unm_none : forall G, unm G (repeat false (length G)) = G.
Proof. induction G; simpl; congruence. Qed.
Lemma prec_spec : forall ref sys n, prec_n eqd ref sys n = Some (common (ngrams n sys) (ngrams n ref), length (ngrams n sys)).
Proof.
  intros. unfold prec_n. fold (total n sys). fold (total n ref). rewrite !total_length.
  rewrite (loop_i_spec sys ref n (nodup geqd (ngrams n sys))).
  - rewrite unm_none. reflexivity.
  - now rewrite repeat_length.
  - reflexivity.
  - apply NoDup_nodup.
  - intros x I. apply nodup_In. exact I.
Qed.

(** consequences *)
Lemma occ_pos : forall g l, occ g l <> 0 <-> In g l.
Proof. intros. unfold BleuSpec.occ. rewrite (count_occ_In geqd). lia. Qed.
Lemma sum_zero : forall (f : list A -> nat) U, (forall x, In x U -> f x = 0) -> sum (map f U) = 0.
Proof. induction U as [|u U IH]; intro H; simpl; auto. rewrite H by (simpl; auto). rewrite IH; auto. intros; apply H; simpl; auto. Qed.
Lemma sum_filter : forall (f : list A -> nat) p U, (forall x, In x U -> p x = false -> f x = 0) -> sum (map f U) = sum (map f (filter p U)).
Proof.
  induction U as [|u U IH]; intro H; simpl; auto. rewrite IH by (intros; apply H; simpl; auto). destruct (p u) eqn:E; simpl; [reflexivity|].
  rewrite (H u); simpl; auto.
Qed.
Lemma sum_perm : forall (f : list A -> nat) U V, NoDup U -> NoDup V -> (forall x, In x U <-> In x V) -> sum (map f U) = sum (map f V).
Proof.
  intros f U. induction U as [|u U IH]; intros V NU NV E.
  - destruct V as [|v V]; [reflexivity|]. exfalso. apply (E v). simpl; auto.
  - inversion NU; subst. assert (Iv : In u V) by (apply E; simpl; auto). destruct (in_split _ _ Iv) as (V1 & V2 & ->). rewrite map_app. simpl.
    assert (SA : forall a b, sum (a ++ b) = sum a + sum b) by (induction a; intros; simpl; auto; rewrite IHa; lia).
    rewrite SA. simpl. rewrite (IH (V1 ++ V2)).
    + rewrite map_app, SA. lia.
    + auto.
    + apply NoDup_remove_1 in NV. exact NV.
    + intro x. pose proof (NoDup_remove_2 _ _ _ NV) as NI. specialize (E x). simpl in E. rewrite !in_app_iff in *. simpl in E. split.
      * intro I. destruct (proj1 E (or_intror I)) as [X|[X|X]]; auto. subst. contradiction.
      * intro I. destruct (proj2 E) as [X|X]; [tauto|subst; contradiction|auto].
Qed.
Lemma common_sym : forall a b, common a b = common b a.
Proof.
  intros a b. unfold BleuSpec.common.
  rewrite (sum_filter _ (fun x => if in_dec geqd x b then true else false) (nodup geqd a)).
  - rewrite (sum_filter _ (fun x => if in_dec geqd x a then true else false) (nodup geqd b)).
    + rewrite (sum_ext _ (fun g => Nat.min (occ g b) (occ g a))) by (intros; apply Nat.min_comm). apply sum_perm.
      * apply NoDup_filter, NoDup_nodup.
      * apply NoDup_filter, NoDup_nodup.
      * intro x. rewrite !filter_In, !nodup_In. destruct (in_dec geqd x b), (in_dec geqd x a); intuition discriminate.
    + intros x _ H. destruct (in_dec geqd x a) as [|N]; [discriminate|]. destruct (Nat.eq_dec (occ x a) 0) as [Z|Z]; [lia|]. apply occ_pos in Z. contradiction.
  - intros x _ H. destruct (in_dec geqd x b) as [|N]; [discriminate|]. destruct (Nat.eq_dec (occ x b) 0) as [Z|Z]; [lia|]. apply occ_pos in Z. contradiction.
Qed.
Lemma sum_le : forall (f h : list A -> nat) U, (forall x, f x <= h x) -> sum (map f U) <= sum (map h U).
Proof. induction U as [|u U IH]; intro H; simpl; auto. specialize (IH H). specialize (H u). lia. Qed.
Lemma sum_occ : forall U l, NoDup U -> incl l U -> sum (map (fun g => occ g l) U) = length l.
Proof.
  intros U l. induction l as [|x l IH]; intros ND IN.
  - apply sum_zero. reflexivity.
  - rewrite (sum_bump (fun g => occ g (x :: l)) (fun g => occ g l) U x); auto.
    + simpl. f_equal. apply IH; auto. intros y I. apply IN. simpl; auto.
    + apply IN. simpl; auto.
    + rewrite occ_cons. destruct (geqd x x); [lia|congruence].
    + intros y N. rewrite occ_cons. destruct (geqd x y); [congruence|reflexivity].
Qed.
Lemma common_le : forall a b, common a b <= length a.
Proof.
  intros a b. unfold BleuSpec.common. rewrite <- (sum_occ (nodup geqd a) a).
  - apply sum_le. intro. apply Nat.le_min_l.
  - apply NoDup_nodup.
  - intros x I. now apply nodup_In.
Qed.
Lemma common_self : forall a, common a a = length a.
Proof.
  intro a. unfold BleuSpec.common. rewrite (sum_same _ (fun g => occ g a)) by (intro; apply Nat.min_id). apply sum_occ.
  - apply NoDup_nodup.
  - intros x I. now apply nodup_In.
Qed.

(** corpus *)
Lemma add_all_spec : forall ref sys acc n, add_all A eqd ref sys n acc =
  Some (map (fun e => (fst (snd e) + common (ngrams (fst e) sys) (ngrams (fst e) ref), snd (snd e) + length (ngrams (fst e) sys))) (combine (seq n (length acc)) acc)).
Proof.
  intros ref sys. induction acc as [|[p t] acc IH]; intro n; [reflexivity|]. cbn [add_all]. rewrite prec_spec, IH. reflexivity.
Qed.
Definition acc_at (n : nat) (pairs : list (list A * list A)) : nat * nat :=
  (sum (map (fun e => common (ngrams n (snd e)) (ngrams n (fst e))) pairs), sum (map (fun e => length (ngrams n (snd e))) pairs)).
Lemma corpus_loop_spec : forall refs syss c, length (acc c) = MAX_N ->
  corpus_loop A eqd refs syss c =
  if length syss <? length refs then None else
  let P := combine refs syss in
  Some {| refWords := refWords c + sum (map (fun e => length (fst e)) P); sysWords := sysWords c + sum (map (fun e => length (snd e)) P);
          acc := map (fun e => (fst (snd e) + fst (acc_at (fst e) P), snd (snd e) + snd (acc_at (fst e) P))) (combine (seq 1 MAX_N) (acc c)) |}.
Proof.
  induction refs as [|ref refs IH]; intros syss c L; cbn [corpus_loop].
  - cbn [length]. destruct (Nat.ltb_spec (length syss) 0); [lia|]. cbv zeta. cbn [combine map sum]. f_equal. destruct c as [rw sw ac]. cbn [refWords sysWords acc] in *.
    f_equal; try lia. unfold MAX_N in *. do 5 (destruct ac as [|[? ?] ac]; try discriminate). cbn. rewrite !Nat.add_0_r. reflexivity.
  - destruct syss as [|sys syss]; [reflexivity|]. rewrite add_all_spec. rewrite IH.
    2:{ cbn [acc]. rewrite map_length, combine_length, seq_length. lia. }
    cbn [length]. change (S (length syss) <? S (length refs)) with (length syss <? length refs). destruct (length syss <? length refs); [reflexivity|]. cbv zeta. f_equal.
    destruct c as [rw sw ac]. cbn [refWords sysWords acc combine map sum fst snd] in *. f_equal; try lia.
    unfold MAX_N in *. do 5 (destruct ac as [|[? ?] ac]; try discriminate). cbn [combine seq map fst snd acc_at sum length]. unfold acc_at. cbn [map sum fst snd]. rewrite <- !Nat.add_assoc. reflexivity.
Qed.
Lemma corpus_spec : forall refs syss, length refs <= length syss ->
  exists c, corpus eqd refs syss = Some c /\
    let P := combine refs syss in
    refWords c = sum (map (@length A) refs) /\ sysWords c = sum (map (fun e => length (snd e)) P) /\
    forall n, 1 <= n <= 4 -> nth_error (acc c) (n - 1) = Some (sum (map (fun e => common (ngrams n (snd e)) (ngrams n (fst e))) P), sum (map (fun e => length (ngrams n (snd e))) P)).
Proof.
  intros refs syss L. unfold corpus. rewrite corpus_loop_spec by reflexivity. destruct (Nat.ltb_spec (length syss) (length refs)); [lia|]. eexists. split; [reflexivity|].
  cbv zeta. cbn [refWords sysWords acc]. split; [|split].
  - rewrite Nat.add_0_l. f_equal. revert syss L H. induction refs as [|r refs IH]; intros [|s syss] L H; cbn [combine map length] in *; try lia; auto. f_equal. apply IH; lia.
  - reflexivity.
  - intros n Hn. assert (C : n = 1 \/ n = 2 \/ n = 3 \/ n = 4) by lia. destruct C as [-> | [-> | [-> | ->]]]; reflexivity.
Qed.
Lemma corpus_short : forall refs syss, length syss < length refs -> corpus eqd refs syss = None.
Proof. intros. unfold corpus. rewrite corpus_loop_spec by reflexivity. destruct (Nat.ltb_spec (length syss) (length refs)); [reflexivity|lia]. Qed.
End S.

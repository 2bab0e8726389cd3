(** Proofs about whole decoding sessions: one translation followed by requests for further ones. *)
From Coq Require Import ZArith Arith List Bool Lia Sorted Permutation.
From Verif Require Import AMap StackSpec StackModel SearchStackProofs SearchSpec SearchModel SearchProofs.
Import ListNotations.
Open Scope nat_scope.

Section Progress.
Variables (H : Type) (succs : H -> list (H * Z)) (start : H) (dist : H -> nat) (J : nat).
Hypothesis prog : forall a b e, from_start H succs start a -> In (b, e) (succs a) -> dist a < dist b /\ dist b <= J.
Fixpoint sz (n : nat) (a : H) : nat := match n with 0 => 1 | S n => S (list_sum (map (fun x => sz n (fst x)) (succs a))) end.
Lemma sz_eq : forall n m a, from_start H succs start a -> J - dist a <= n -> J - dist a <= m -> sz n a = sz m a.
Proof.
  assert (STEP : forall a b e, from_start H succs start a -> In (b, e) (succs a) -> from_start H succs start b).
  { intros a b e (x & X) Q. exists (x + e)%Z. econstructor; eauto. }
  assert (Z0 : forall m a, from_start H succs start a -> J <= dist a -> sz m a = 1).
  { intros [|m] a F L; auto. cbn. destruct (succs a) as [|[b e] r] eqn:E; auto. exfalso. destruct (prog a b e F) as [A B]; [rewrite E; now left|lia]. }
  induction n as [|n IH]; intros m a F L1 L2.
  - rewrite (Z0 m a F) by lia. reflexivity.
  - destruct m as [|m]; [rewrite (Z0 (S n) a F) by lia; reflexivity|]. cbn [sz]. do 2 f_equal. apply map_ext_in. intros (b, e) Q. cbn [fst].
    destruct (prog a b e F Q). apply IH; [eapply STEP; eauto|lia|lia].
Qed.
Lemma progress_finite : exists size, finite_space H succs start size.
Proof.
  exists (sz (S J)). intros a F. cbn [sz]. do 2 f_equal. apply map_ext_in. intros (b, e) Q. cbn [fst]. apply (sz_eq J (S J)); [|lia|lia].
  destruct F as (x & X). exists (x + e)%Z. econstructor; eauto.
Qed.
End Progress.

Section Session.
Variables (H : Type) (enc : H -> nat) (dec : nat -> H).
Variables (st : H -> nat) (cl : H -> nat * nat) (heur : H -> Z) (dist : H -> nat) (complete : H -> bool) (succs : H -> list (H * Z)).
Variable null : H * Z.
Variables (bf prune : bool) (I MAXIT : nat) (GEPS LOWEST WORST : Z).
Hypothesis dec_enc : forall h, dec (enc h) = h.
Variables (start : H) (s0 : Z).
Notation ok := (from_start H succs start).
Variable size : H -> nat.
Hypothesis fin : finite_space H succs start size.
Variable J : nat.
Hypothesis dist_ok : forall h, ok h -> dist h <= J /\ (complete h = true <-> dist h = J).
Hypothesis cl_ok : bf = true -> forall h, ok h -> fst (cl h) = dist h.
Notation Inv := (Inv H enc st cl heur dist complete succs bf GEPS WORST start s0).
Notation W := (W H dec size).
Notation good := (good H succs null start s0).
Notation reach := (reach H succs start s0).
Notation push := (push H enc st cl heur dist complete bf prune GEPS LOWEST).
Notation decode_loop := (decode_loop H enc dec st cl heur dist complete succs bf prune I GEPS LOWEST).
Notation getNextTrans := (getNextTrans H enc dec st cl heur dist complete succs null bf prune I MAXIT GEPS LOWEST WORST).
Notation next_n := (next_n H enc dec st cl heur dist complete succs null bf prune I MAXIT GEPS LOWEST WORST).
Notation translate := (translate H enc dec st cl heur dist complete succs null bf prune I MAXIT GEPS LOWEST WORST).
Notation session := (session H enc dec st cl heur dist complete succs null bf prune I MAXIT GEPS LOWEST WORST).
Notation cleared := (cleared WORST).

Lemma Inv_cleared : forall max flag, max <> 0 -> Inv (cleared max flag).
Proof.
  intros max flag N. split; [now apply SInv_empty|]. split; [intros g []|]. split; [intros t i sc Q; discriminate|]. now left.
Qed.
Lemma W_cleared : forall max flag, W (cleared max flag) = 0.
Proof. reflexivity. Qed.
Lemma Inv_worst : forall D, Inv D -> Inv {| cont := cont D; bestComplete := WORST |}.
Proof. intros D (A & B & C & _). split; [exact A|]. split; [exact B|]. split; [exact C|]. now left. Qed.
Lemma reach_start : reach start s0.
Proof. exists 0%Z. split; [constructor|lia]. Qed.
Lemma start_ok : forall max flag, max <> 0 -> exists D, push (start, s0) (cleared max flag) = Some D /\ Inv D /\ W D <= size start /\ mmax (cont D) = max /\ bfirst (cont D) = flag /\
  forall g, In g (stored (cont D)) -> g = item H enc st cl heur dist bf GEPS start s0.
Proof.
  intros max flag N. destruct (push_ok H enc dec st cl heur dist complete succs null bf prune GEPS LOWEST WORST dec_enc start s0 size cl_ok (start, s0) (cleared max flag) (Inv_cleared max flag N) reach_start)
    as (D & E & IV & LW & M & B & S). exists D. rewrite W_cleared in LW. cbn in *. split; [auto|]. split; [auto|]. split; [auto|]. split; [auto|]. split; [auto|].
  intros g Q. destruct (S g Q) as [|[]]; auto.
Qed.
Lemma exhausted : forall todo iter r D, ms_isempty (cont D) = true -> exists it, decode_loop todo iter r D = Some (r, it, D).
Proof.
  intros [|todo] iter r D Q; cbn [SearchModel.decode_loop]; [eauto|]. destruct I; cbn [SearchModel.select]; [|rewrite Q]; eauto.
Qed.
Lemma exhausted_n : forall n D l D', ms_isempty (cont D) = true -> next_n n D = Some (l, D') -> Forall (fun r => fst r = null) l.
Proof.
  induction n as [|n IH]; intros D l D' Q E; cbn [SearchModel.next_n] in E; [inversion E; constructor|].
  unfold SearchModel.getNextTrans, decode in E. destruct (exhausted (MAXIT - 1) 1 null {| cont := cont D; bestComplete := WORST |} Q) as (it & E1). rewrite E1 in E.
  destruct (next_n n _) as [[l1 D1]|] eqn:E2; [|discriminate]. inversion E; subst. constructor; auto. apply IH in E2; auto.
Qed.
Definition fine (r : whyp H * nat) : Prop := good (fst r) /\ snd r <= 2 + size start.
Definition ended (a b : whyp H * nat) : Prop := snd a < MAXIT -> complete (fst (fst a)) = false -> fst b = null.
Lemma next_ok : I <> 0 -> 1 <= MAXIT -> forall n D, Inv D -> W D <= size start -> exists l D', next_n n D = Some (l, D') /\ length l = n /\ Forall fine l /\ ForallOrdPairs ended l.
Proof.
  intros NI MX. induction n as [|n IH]; intros D IV LW; cbn [SearchModel.next_n].
  - exists [], D. repeat split; constructor.
  - unfold SearchModel.getNextTrans, decode.
    destruct (decode_loop_ok H enc dec st cl heur dist complete succs null bf prune I GEPS LOWEST WORST dec_enc start s0 size fin J dist_ok cl_ok (MAXIT - 1) 1 null
      {| cont := cont D; bestComplete := WORST |} NI (Inv_worst D IV) (or_introl eq_refl)) as (r & it & D1 & E1 & IV1 & G1 & K1 & W1 & T1 & C1).
    rewrite E1. change (W {| cont := cont D; bestComplete := WORST |}) with (W D) in *. destruct (IH D1 IV1 ltac:(lia)) as (l & D2 & E2 & L2 & F2 & P2). rewrite E2.
    exists ((r, it) :: l), D2. split; [auto|]. split; [cbn; auto|]. split; [constructor; auto; split; cbn; [auto|lia]|]. constructor; auto.
    assert (X : complete (fst r) = true \/ ~ it < MAXIT \/ ms_isempty (cont D1) = true).
    { destruct (Nat.lt_ge_cases it MAXIT) as [Q|Q]; [|right; left; lia]. destruct (C1 ltac:(lia)) as [A|A]; [auto|]. right; right. apply (empty_stored _ (proj1 IV1)); auto. }
    destruct X as [X|[X|X]].
    + apply Forall_forall. intros y _ _ Q. cbn in Q. congruence.
    + apply Forall_forall. intros y _ Q _. cbn in Q. lia.
    + apply exhausted_n in E2; auto. eapply Forall_impl; [|exact E2]. intros a Q _ _. exact Q.
Qed.
Theorem session_ok : I <> 0 -> 1 <= MAXIT -> forall max flag n, max <> 0 -> exists l D, session max flag (start, s0) n = Some (l, D) /\ length l = S n /\ Forall fine l /\ ForallOrdPairs ended l.
Proof.
  intros NI MX max flag n N. destruct (start_ok max flag N) as (D & E & IV & LW & M & B & S). unfold SearchModel.session, SearchModel.translate. rewrite E.
  (* a translation is a request for the next one in the state where only the start has been pushed *)
  unfold decode.
  destruct (decode_loop_ok H enc dec st cl heur dist complete succs null bf prune I GEPS LOWEST WORST dec_enc start s0 size fin J dist_ok cl_ok (MAXIT - 1) 1 null
      D NI IV (or_introl eq_refl)) as (r & it & D1 & E1 & IV1 & G1 & K1 & W1 & T1 & C1).
  rewrite E1. destruct (next_ok NI MX n D1 IV1 ltac:(lia)) as (l & D2 & E2 & L2 & F2 & P2). rewrite E2.
  exists ((r, it) :: l), D2. split; [auto|]. split; [cbn; auto|]. split; [constructor; auto; split; cbn; [auto|lia]|]. constructor; auto.
    assert (X : complete (fst r) = true \/ ~ it < MAXIT \/ ms_isempty (cont D1) = true).
    { destruct (Nat.lt_ge_cases it MAXIT) as [Q|Q]; [|right; left; lia]. destruct (C1 ltac:(lia)) as [A|A]; [auto|]. right; right. apply (empty_stored _ (proj1 IV1)); auto. }
    destruct X as [X|[X|X]].
    + apply Forall_forall. intros y _ _ Q. cbn in Q. congruence.
    + apply Forall_forall. intros y _ Q _. cbn in Q. lia.
    + apply exhausted_n in E2; auto. eapply Forall_impl; [|exact E2]. intros a Q _ _. exact Q.
Qed.

(** ** order and optimality *)
Hypothesis heur_complete : forall c, ok c -> complete c = true -> heur c = 0%Z.
Hypothesis final : forall c, ok c -> complete c = true -> succs c = [].
Hypothesis null_inc : complete (fst null) = false.
Notation flag_ok := (flag_ok H heur complete succs bf start).
Notation capped := (capped H enc st cl heur dist complete succs bf GEPS).
Definition desc (a b : whyp H * nat) : Prop := complete (fst (fst a)) = true -> complete (fst (fst b)) = true -> (snd (fst b) <= snd (fst a))%Z.
Lemma next_order : I = 1 -> forall n D l D', Inv D -> flag_ok D -> next_n n D = Some (l, D') ->
  ForallOrdPairs desc l /\ forall B, capped B D -> Forall (fun r => complete (fst (fst r)) = true -> (snd (fst r) <= B)%Z) l.
Proof.
  intros EI. induction n as [|n IH]; intros D l D' IV F E; cbn [SearchModel.next_n] in E.
  - inversion E; subst. split; [constructor|]. intros; constructor.
  - unfold SearchModel.getNextTrans, decode in E.
    destruct (decode_loop_ok H enc dec st cl heur dist complete succs null bf prune I GEPS LOWEST WORST dec_enc start s0 size fin J dist_ok cl_ok (MAXIT - 1) 1 null
      {| cont := cont D; bestComplete := WORST |} ltac:(lia) (Inv_worst D IV) (or_introl eq_refl)) as (r & it & D1 & E1 & IV1 & G1 & K1 & _).
    pose proof (decode1_order H enc dec st cl heur dist complete succs null bf prune I GEPS LOWEST WORST dec_enc start s0 size J dist_ok cl_ok heur_complete final EI
      (MAXIT - 1) 1 null {| cont := cont D; bestComplete := WORST |} r it D1 (Inv_worst D IV) (or_introl eq_refl) null_inc F E1) as [O1 O2].
    rewrite E1 in E. destruct (next_n n D1) as [[l1 D2]|] eqn:E2; [|discriminate]. inversion E; subst. clear E.
    assert (F1 : flag_ok D1) by (eapply flag_keeps; eauto). destruct (IH D1 l1 D' IV1 F1 E2) as [P Q]. split.
    + constructor; auto. apply Forall_forall. intros y Iy C1 C2. specialize (Q _ (O1 C1)). rewrite Forall_forall in Q. cbn. now apply Q.
    + intros B CP. destruct (O2 B CP) as [A1 A2]. constructor; auto.
Qed.
Lemma translate_facts : I = 1 -> forall D r it D1, Inv D -> flag_ok D -> decode H enc dec st cl heur dist complete succs null bf prune I MAXIT GEPS LOWEST D = Some (r, it, D1) ->
  Inv D1 /\ flag_ok D1 /\ (complete (fst r) = true -> capped (snd r) D1).
Proof.
  intros EI D r it D1 IV F E.
  destruct (decode_loop_ok H enc dec st cl heur dist complete succs null bf prune I GEPS LOWEST WORST dec_enc start s0 size fin J dist_ok cl_ok (MAXIT - 1) 1 null
      D ltac:(lia) IV (or_introl eq_refl)) as (r' & it' & D1' & E1 & IV1 & G1 & K1 & _). unfold decode in E. rewrite E1 in E. injection E as -> -> ->.
  split; auto. split; [eapply flag_keeps; eauto|].
  apply (decode1_order H enc dec st cl heur dist complete succs null bf prune I GEPS LOWEST WORST dec_enc start s0 size J dist_ok cl_ok heur_complete final EI
      (MAXIT - 1) 1 null D r it D1 IV (or_introl eq_refl) null_inc F E1).
Qed.
Theorem session_order : I = 1 -> forall max flag n l D, max <> 0 -> (bf = false -> flag = false /\ admissible H succs complete start heur) ->
  session max flag (start, s0) n = Some (l, D) -> ForallOrdPairs desc l.
Proof.
  intros EI max flag n l D N F E. destruct (start_ok max flag N) as (D0 & E0 & IV & LW & M & B & S). unfold SearchModel.session, SearchModel.translate in E. rewrite E0 in E.
  assert (F0 : flag_ok D0) by (intro EB; destruct (F EB); split; [congruence|auto]).
  destruct (decode _ _ _ _ _ _ _ _ _ _ _ _ _ _ _ _ D0) as [[[r it] D1]|] eqn:E1; [|discriminate]. destruct (translate_facts EI _ _ _ _ IV F0 E1) as (IV1 & F1 & CP).
  destruct (next_n n D1) as [[l1 D2]|] eqn:E2; [|discriminate]. injection E as <- ->. destruct (next_order EI n D1 l1 D IV1 F1 E2) as [P Q]. constructor; auto.
  apply Forall_forall. intros y Iy C1 C2. specialize (Q _ (CP C1)). rewrite Forall_forall in Q. cbn. now apply Q.
Qed.
Theorem translate_best : I = 1 -> forall max flag C, size start <= max -> size start < MAXIT -> (bf = false -> flag = false /\ admissible H succs complete start heur) ->
  (forall h s, reach h s -> (LOWEST <= s)%Z) -> sound_states H succs complete start st heur dist -> best_score H succs complete start s0 C ->
  (prune = true -> bf = false /\ (WORST <= C)%Z) ->
  exists r it D, translate max flag (start, s0) = Some (r, it, D) /\ complete (fst r) = true /\ snd r = C /\ reach (fst r) (snd r).
Proof.
  intros EI max flag C RM MX F LOW SS BS PR. assert (SP : 1 <= size start). { rewrite fin; [lia|]. exists 0%Z. constructor. }
  assert (N : max <> 0) by lia. destruct (start_ok max flag N) as (D0 & E0 & IV & LW & M & B & S). unfold SearchModel.translate. rewrite E0. unfold decode.
  assert (F0 : flag_ok D0) by (intro EB; destruct (F EB); split; [congruence|auto]).
  apply (decode1_best H enc dec st cl heur dist complete succs null bf prune I GEPS LOWEST WORST dec_enc start s0 size fin J dist_ok cl_ok heur_complete final LOW SS C BS PR EI); auto;
    [now left| |lia|lia].
  apply (push_full H enc dec st cl heur dist complete succs bf prune GEPS LOWEST WORST dec_enc start s0 size fin cl_ok heur_complete LOW SS C BS PR start s0 (cleared max flag) D0); auto.
  - now apply Inv_cleared.
  - exact reach_start.
  - rewrite W_cleared. cbn. lia.
  - intro EB. apply (F EB).
  - right. destruct BS as [(c & e & X & Cc & ->) _]. exists c, e. auto.
Qed.
End Session.

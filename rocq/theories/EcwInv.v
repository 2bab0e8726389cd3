From Coq Require Import Ascii String Arith ZArith List Bool Lia.
From Verif Require Import EditDistSpec EditDistModel EditDistProofs TextSpec TextModel EcSpec EcModel EcProofs EcwSpec EcwModel EcwProofs EcwGraph.
Import ListNotations.
Open Scope Z_scope.

Definition tup (a : warc) : nat * nat * list word * Z := (a_pred a, a_succ a, a_words a, a_score a).

Section I.
Variables hc ic sc dc ecmW wgW : Z.
Variable G : list warc.
Variable s0 : Z.
Variable Sc : nat -> Z.
Hypothesis DC : 0 < dc.
Hypothesis EW : 0 < ecmW.
Hypothesis WN : forall arc w, In arc G -> In w (a_words arc) -> w <> [].
Hypothesis TP : topo (map tup G).
Hypothesis SC : forall s ws c, gpath (map tup G) s0 s ws c -> wgW * c = wgW * Sc s.
Notation D := (D hc ic sc dc).
Notation arc_ok := (arc_ok hc ic sc dc).
Notation mcol := (mcol hc ic sc dc).

Definition P (s : nat) (ws : list str) : Prop := exists c, gpath (map tup G) s0 s ws c.
Definition into (a s : nat) : Prop := exists b arc, (b < a)%nat /\ nth_error G b = Some arc /\ a_succ arc = s.
Definition Pa (a s : nat) (ws : list str) : Prop :=
  exists b arc ws0, (b < a)%nat /\ nth_error G b = Some arc /\ a_succ arc = s /\ P (a_pred arc) ws0 /\ ws = ws0 ++ a_words arc.

Lemma tup_at : forall b arc, nth_error G b = Some arc -> nth_error (map tup G) b = Some (tup arc).
Proof. intros b arc H. now rewrite nth_error_map, H. Qed.
Lemma tup_inv : forall b t, nth_error (map tup G) b = Some t -> exists arc, nth_error G b = Some arc /\ t = tup arc.
Proof. intros b t H. rewrite nth_error_map in H. destruct (nth_error G b) as [arc|]; inversion H. eauto. Qed.
Lemma succ_pos : forall b arc, nth_error G b = Some arc -> a_succ arc <> 0%nat.
Proof. intros b arc H. apply tup_at in H. now apply TP in H. Qed.
Lemma pred_into : forall a arc, nth_error G a = Some arc -> a_pred arc = 0%nat \/ into a (a_pred arc).
Proof.
  intros a arc H. apply tup_at in H. apply TP in H. destruct H as (_ & [H|(b & s' & us & d & Hb & E)] & _); [left; exact H|].
  right. apply tup_inv in E. destruct E as (arc' & E & T). inversion T. exists b, arc'. auto.
Qed.
Lemma pred_done : forall a arc b arc', nth_error G a = Some arc -> nth_error G b = Some arc' -> a_succ arc' = a_pred arc -> (b < a)%nat.
Proof.
  intros a arc b arc' H H' E. apply tup_at in H, H'. apply TP in H. destruct H as (_ & _ & H). unfold tup in H'. rewrite E in H'. eauto.
Qed.
Lemma P0 : forall ws, P 0 ws <-> ws = [].
Proof.
  intros ws. split.
  - intros [c H]. inversion H as [|s t ws1 us c1 d Hp Hi]; [auto|]. subst. apply In_nth_error in Hi. destruct Hi as [n Hn].
    apply TP in Hn. destruct Hn as [Hn _]. congruence.
  - intros ->. exists s0. constructor.
Qed.
Lemma P_Pa : forall s ws, s <> 0%nat -> (P s ws <-> Pa (length G) s ws).
Proof.
  intros s ws N. split.
  - intros [c H]. inversion H as [|s' t ws1 us c1 d Hp Hi]; [congruence|]. subst. apply in_map_iff in Hi. destruct Hi as (arc & T & Hi).
    inversion T; subst. apply In_nth_error in Hi. destruct Hi as [n Hn]. exists n, arc, ws1. split; [apply nth_error_Some; congruence|].
    split; [auto|]. split; [auto|]. split; [exists c1; auto|auto].
  - intros (b & arc & ws0 & _ & E & <- & [c H] & ->). exists (c + a_score arc). eapply gp_arc; [exact H|].
    apply in_map_iff. exists arc. split; [reflexivity|]. eapply nth_error_In; eauto.
Qed.
Lemma Pa_pred : forall a arc ws, nth_error G a = Some arc -> a_pred arc <> 0%nat -> (P (a_pred arc) ws <-> Pa a (a_pred arc) ws).
Proof.
  intros a arc ws H N. rewrite P_Pa by auto. split; intros (b & arc' & ws0 & L & E & S1 & R); exists b, arc', ws0; (split; [|auto]).
  - eapply pred_done; eauto.
  - apply nth_error_Some. congruence.
Qed.
Lemma P_in : forall b arc ws, nth_error G b = Some arc -> P (a_pred arc) ws -> P (a_succ arc) (ws ++ a_words arc).
Proof.
  intros b arc ws E [c H]. exists (c + a_score arc). eapply gp_arc; [exact H|]. apply in_map_iff. exists arc. split; [reflexivity|]. eapply nth_error_In; eauto.
Qed.

(** ** what is stored for a column of a state *)
Definition bcol (st : wgp) (s j : nat) : Prop :=
  nth j (bestS st s) None = Some (ecmW * (- nth j (esiS st s) 0) + wgW * Sc s).
Definition pcol (a : nat) (st : wgp) (s j : nat) : Prop :=
  exists b arc, (b < a)%nat /\ nth_error G b = Some arc /\ a_succ arc = s /\ nth j (predS st s) None = Some b /\
                nth j (lastrow (esiS st (a_pred arc)) (esiA st b)) 0 = nth j (esiS st s) 0.
Definition lens (K : nat) (st : wgp) (s : nat) : Prop := length (esiS st s) = K /\ length (bestS st s) = K /\ length (predS st s) = K.
Definition wok (st : wgp) (s : nat) : Prop := exists w, wgS st s = Some w /\ wgW * w = wgW * Sc s.

(** everything stored for [K] columns is right for prefix [p] *)
Record Full (p : list str) (K : nat) (st : wgp) : Prop := {
  F_len : forall s, s = 0%nat \/ into (length G) s -> lens K st s /\ wok st s;
  F_val : forall s j, s = 0%nat \/ into (length G) s -> (j < K)%nat -> mset (P s) (fun ws => D p ws j) (nth j (esiS st s) 0) /\ bcol st s j;
  F_pred : forall s j, into (length G) s -> (j < K)%nat -> pcol (length G) st s j;
  F_arc : forall b arc, nth_error G b = Some arc -> arc_ok p K (P (a_pred arc)) [] (esiS st (a_pred arc)) (a_words arc) (esiA st b)
}.

(** ** the loop over the columns *)
Lemma fold_best : forall a row wg m start best pred srow, (start + m = length best)%nat -> length pred = length best -> length srow = length best ->
  let '(best', pred', srow') := fold_left (best_pos ecmW wgW a row wg) (seq start m) (best, pred, srow) in
  length best' = length best /\ length pred' = length best /\ length srow' = length best /\
  (forall j, (j < start)%nat -> nth j best' None = nth j best None /\ nth j pred' None = nth j pred None /\ nth j srow' 0 = nth j srow 0) /\
  (forall j, (start <= j < start + m)%nat ->
     let ns := ecmW * (- nth j row 0) + wgW * wg in
     if ltS (nth j best None) ns then nth j best' None = Some ns /\ nth j pred' None = Some a /\ nth j srow' 0 = nth j row 0
     else nth j best' None = nth j best None /\ nth j pred' None = nth j pred None /\ nth j srow' 0 = nth j srow 0).
Proof.
  intros a row wg m. induction m as [|m IH]; intros start best pred srow L1 L2 L3.
  - cbn. split; [auto|]. split; [auto|]. split; [auto|]. split; [auto|]. intros j Hj. lia.
  - cbn [seq fold_left]. set (acc := best_pos ecmW wgW a row wg (best, pred, srow) start). destruct acc as [[b1 p1] r1] eqn:EA.
    assert (HH : length b1 = length best /\ length p1 = length best /\ length r1 = length best /\
      (forall j, j <> start -> nth j b1 None = nth j best None /\ nth j p1 None = nth j pred None /\ nth j r1 0 = nth j srow 0) /\
      (if ltS (nth start best None) (ecmW * (- nth start row 0) + wgW * wg) then nth start b1 None = Some (ecmW * (- nth start row 0) + wgW * wg) /\ nth start p1 None = Some a /\ nth start r1 0 = nth start row 0
       else b1 = best /\ p1 = pred /\ r1 = srow)).
    { subst acc. unfold best_pos in EA. destruct (ltS _ _); inversion EA; subst; [|repeat split; auto].
      rewrite set_nth_at, !set_at_len by lia. split; [auto|]. split; [auto|]. split; [auto|]. split.
      - intros j Hj. rewrite !set_at_other by lia. auto.
      - rewrite !set_at_same by lia. auto. }
    destruct HH as (H1 & H2 & H3 & H4 & H5). specialize (IH (S start) b1 p1 r1 ltac:(lia) ltac:(lia) ltac:(lia)).
    destruct (fold_left _ _ (b1, p1, r1)) as [[b2 p2] r2]. destruct IH as (J1 & J2 & J3 & J4 & J5).
    split; [lia|]. split; [lia|]. split; [lia|]. split.
    + intros j Hj. destruct (J4 j ltac:(lia)) as (A & B & C). rewrite A, B, C. apply H4. lia.
    + intros j Hj. cbv zeta. destruct (Nat.eq_dec j start) as [->|NE].
      * destruct (J4 start ltac:(lia)) as (A & B & C). rewrite A, B, C. destruct (ltS _ _); [auto|]. destruct H5 as (-> & -> & ->). auto.
      * specialize (J5 j ltac:(lia)). cbv zeta in J5. destruct (H4 j NE) as (A & B & C). rewrite A, B, C in J5. exact J5.
Qed.

(** ** the arcs one after the other *)
Section PROC.
Variable p : list str.
Variables K N : nat.
Variable st0 : wgp.
Variable f : list Z -> str -> esi -> option esi.
Variable dsz : nat.
Hypothesis KN : (K <= N)%nat.
Hypothesis N1 : (0 < N)%nat.
Hypothesis DSZ : match dsz with O => O | _ => (N - dsz)%nat end = K.
Hypothesis B_len : forall s, into (length G) s -> lens K st0 s.
Hypothesis B_arc : forall b arc, nth_error G b = Some arc -> K <> 0%nat -> arc_ok p K (P (a_pred arc)) [] (esiS st0 (a_pred arc)) (a_words arc) (esiA st0 b).
Hypothesis FOK : forall Q ws prev es, (forall w, In w ws -> w <> []) -> length prev = N -> (forall j, (j < N)%nat -> mcol p Q [] j (nth j prev 0)) ->
  (K <> 0%nat -> arc_ok p K Q [] prev ws es) ->
  exists es', arc_words f prev ws es = Some es' /\ (K <> 0%nat -> Forall2 (eagree K) es es') /\ arc_ok p N Q [] prev ws es'.
Hypothesis B_val : forall s j, into (length G) s -> (j < K)%nat -> mset (P s) (fun ws => D p ws j) (nth j (esiS st0 s) 0).

Record Inv (a : nat) (st : wgp) : Prop := {
  I_0 : lens N st 0 /\ wok st 0 /\ (forall j, (j < N)%nat -> mset (P 0) (fun ws => D p ws j) (nth j (esiS st 0) 0) /\ bcol st 0 j) /\
        (forall j, (j < K)%nat -> nth j (esiS st 0) 0 = nth j (esiS st0 0) 0);
  I_in : forall s, into a s -> lens N st s /\ wok st s /\
        (forall j, (K <= j < N)%nat -> mset (Pa a s) (fun ws => D p ws j) (nth j (esiS st s) 0) /\ bcol st s j /\ pcol a st s j);
  I_out : forall s, into (length G) s -> ~ into a s -> esiS st s = esiS st0 s /\ bestS st s = bestS st0 s /\ predS st s = predS st0 s;
  I_old : forall s j, into (length G) s -> (j < K)%nat -> nth j (esiS st s) 0 = nth j (esiS st0 s) 0 /\ nth j (bestS st s) None = nth j (bestS st0 s) None /\ nth j (predS st s) None = nth j (predS st0 s) None;
  I_arc : forall b arc, (b < a)%nat -> nth_error G b = Some arc ->
        arc_ok p N (P (a_pred arc)) [] (esiS st (a_pred arc)) (a_words arc) (esiA st b) /\ (K <> 0%nat -> Forall2 (eagree K) (esiA st0 b) (esiA st b));
  I_rest : forall b, (a <= b)%nat -> esiA st b = esiA st0 b
}.

Lemma into_dec : forall a s, into a s \/ ~ into a s.
Proof.
  intros a s. induction a as [|a IH]; [right; intros (b & arc & H & _); lia|].
  destruct IH as [(b & arc & H & R)|NI]; [left; exists b, arc; split; [lia|auto]|].
  destruct (nth_error G a) as [arc|] eqn:E.
  - destruct (Nat.eq_dec (a_succ arc) s) as [ES|NS].
    + left. exists a, arc. split; [lia|auto].
    + right. intros (b & arc' & H & E' & R). destruct (Nat.eq_dec b a) as [->|NE]; [congruence|]. apply NI. exists b, arc'. split; [lia|auto].
  - right. intros (b & arc' & H & E' & R). destruct (Nat.eq_dec b a) as [->|NE]; [congruence|]. apply NI. exists b, arc'. split; [lia|auto].
Qed.

Lemma proc_arc_ok : forall a arc st, nth_error G a = Some arc -> Inv a st -> exists st', proc_arc ecmW wgW f dsz a arc st = Some st' /\ Inv (S a) st'.
Proof.
  intros a arc st EA IV. pose proof (succ_pos _ _ EA) as SP.
  assert (AL : (a < length G)%nat) by (apply nth_error_Some; congruence).
  assert (SI : into (length G) (a_succ arc)) by (exists a, arc; auto).
  assert (NPS : a_pred arc <> a_succ arc) by (intro X; pose proof (pred_done a arc a arc EA EA (eq_sym X)); lia).
  (* the predecessor is complete *)
  assert (PR : lens N st (a_pred arc) /\ wok st (a_pred arc) /\ forall j, (j < N)%nat -> mcol p (P (a_pred arc)) [] j (nth j (esiS st (a_pred arc)) 0)).
  { destruct (Nat.eq_dec (a_pred arc) 0) as [Z|NZ].
    - rewrite Z. destruct (I_0 _ _ IV) as (A & B & C & _). split; [exact A|]. split; [exact B|]. intros j Hj. destruct (C j Hj) as [M _].
      eapply mset_ext; [| |exact M]; [tauto|]. intros ws _. now rewrite app_nil_r.
    - destruct (pred_into _ _ EA) as [?|PI]; [congruence|]. destruct (I_in _ _ IV _ PI) as (A & B & C). split; [exact A|]. split; [exact B|]. intros j Hj.
      destruct (Nat.lt_ge_cases j K) as [JK|JK].
      + assert (PG : into (length G) (a_pred arc)) by (destruct PI as (b & arc' & ? & ? & ?); exists b, arc'; split; [lia|auto]).
        destruct (I_old _ _ IV _ j PG JK) as (E & _). rewrite E. eapply mset_ext; [| |exact (B_val _ _ PG JK)]; [tauto|]. intros ws _. now rewrite app_nil_r.
      + destruct (C j ltac:(lia)) as (M & _). eapply mset_ext; [| |exact M]; [|intros ws _; now rewrite app_nil_r].
        intros ws. symmetry. apply Pa_pred; auto. }
  destruct PR as ((PL & _) & (w0 & PW1 & PW2) & PM).
  assert (ARC0 : K <> 0%nat -> arc_ok p K (P (a_pred arc)) [] (esiS st (a_pred arc)) (a_words arc) (esiA st a)).
  { intro KZ. rewrite (I_rest _ _ IV) by lia. eapply arc_ok_prev; [|apply B_arc; eauto]. intros i Hi.
    destruct (pred_into _ _ EA) as [Z|PI].
    - rewrite Z. symmetry. apply (I_0 _ _ IV). auto.
    - symmetry. apply (I_old _ _ IV); auto. destruct PI as (b & arc' & ? & ? & ?); exists b, arc'; split; [lia|auto]. }
  destruct (FOK (P (a_pred arc)) (a_words arc) (esiS st (a_pred arc)) (esiA st a)) as (es' & ES & AG & OK); auto.
  { intros w Hw. eapply WN; [eapply nth_error_In; eauto|auto]. }
  unfold proc_arc. rewrite ES. unfold updateBestState. cbn [esiS esiA wgS bestS predS]. rewrite PW1.
  assert (UA : upd (esiA st) a es' a = es') by (unfold upd; now rewrite Nat.eqb_refl). rewrite !UA. clear UA.
  assert (RE : forall prev es, match es with [] => prev | e :: l => scrVec (last (e :: l) (mkesi [] [])) end = lastrow prev es) by (intros ? []; reflexivity).
  rewrite !RE. clear RE.
  destruct (arc_ok_last hc ic sc dc p N (P (a_pred arc)) (a_words arc) [] (esiS st (a_pred arc)) es' OK PL PM) as [RL RM].
  set (row := lastrow (esiS st (a_pred arc)) es') in *. cbn [app] in RM.
  rewrite RL.
  (* lengths of the successor's vectors *)
  assert (SL : lens N st (a_succ arc) /\ into a (a_succ arc) \/ lens K st (a_succ arc) /\ ~ into a (a_succ arc)).
  { destruct (into_dec a (a_succ arc)) as [H|H]; [left; split; auto; apply (I_in _ _ IV _ H)|right; split; auto].
    destruct (I_out _ _ IV _ SI H) as (E1 & E2 & E3). unfold lens. rewrite E1, E2, E3. apply B_len, SI. }
  set (best := bestS st (a_succ arc) ++ repeat None (N - length (bestS st (a_succ arc)))).
  set (pred := predS st (a_succ arc) ++ repeat None (N - length (bestS st (a_succ arc)))).
  set (srow := pad N (esiS st (a_succ arc))).
  assert (LB : length best = N /\ length pred = N /\ length srow = N).
  { unfold best, pred, srow. destruct SL as [[(A & B & C) _]|[(A & B & C) _]]; rewrite !app_length, !repeat_length, pad_len by lia; lia. }
  destruct LB as (LB1 & LB2 & LB3). rewrite LB1. rewrite DSZ.
  pose proof (fold_best a row (w0 + a_score arc) (N - K) K best pred srow ltac:(lia) ltac:(lia) ltac:(lia)) as FB.
  destruct (fold_left _ _ _) as [[best' pred'] srow']. destruct FB as (L1 & L2 & L3 & LOW & HIGH).
  rewrite LB1 in L1, L2, L3.
  eexists. split; [reflexivity|].
  assert (WG : wgW * (w0 + a_score arc) = wgW * Sc (a_succ arc)).
  { destruct (PM 0%nat N1) as [(ws & [c Hc] & _) _]. assert (GP : gpath (map tup G) s0 (a_succ arc) (ws ++ a_words arc) (c + a_score arc)).
    { eapply gp_arc; [exact Hc|]. apply in_map_iff. exists arc. split; [reflexivity|]. eapply nth_error_In; eauto. }
    apply SC in GP. apply SC in Hc. lia. }
  (* old columns of the padded vectors *)
  assert (OLDC : forall j, (j < K)%nat -> nth j best None = nth j (bestS st (a_succ arc)) None /\ nth j pred None = nth j (predS st (a_succ arc)) None /\ nth j srow 0 = nth j (esiS st (a_succ arc)) 0).
  { intros j Hj. unfold best, pred, srow. destruct SL as [[(A & B & C) _]|[(A & B & C) _]]; rewrite !app_nth1 by lia; rewrite pad_nth by lia; auto. }
  assert (NEWC : forall j, (K <= j < N)%nat -> (into a (a_succ arc) -> nth j best None = nth j (bestS st (a_succ arc)) None /\ nth j pred None = nth j (predS st (a_succ arc)) None /\ nth j srow 0 = nth j (esiS st (a_succ arc)) 0)
     /\ (~ into a (a_succ arc) -> nth j best None = None)).
  { intros j Hj. unfold best, pred, srow. split; intro H; destruct SL as [[(A & B & C) H']|[(A & B & C) H']]; try contradiction.
    - rewrite !app_nth1 by lia; rewrite pad_nth by lia; auto.
    - rewrite app_nth2 by lia. apply nth_repeat. }
  (* arcs processed before do not end in their predecessors later *)
  assert (PNS : forall b arc', (b <= a)%nat -> nth_error G b = Some arc' -> a_pred arc' <> a_succ arc).
  { intros b arc' Hb E X. pose proof (pred_done b arc' a arc E EA (eq_sym X)). lia. }
  constructor; cbn [esiS esiA wgS bestS predS].
  - destruct (I_0 _ _ IV) as ((A1 & A2 & A3) & (w & W1 & W2) & C & O). unfold lens, wok, bcol, upd. cbn [esiS esiA wgS bestS predS].
    destruct (Nat.eqb_spec 0 (a_succ arc)); [congruence|]. split; [auto|]. split; [exists w; auto|]. split; auto.
  - intros s IS. destruct (Nat.eq_dec s (a_succ arc)) as [->|NE].
    + unfold lens, wok, bcol, pcol, upd. cbn [esiS esiA wgS bestS predS]. rewrite Nat.eqb_refl.
      split; [auto|]. split; [eexists; split; [reflexivity|exact WG]|].
      intros j Hj. specialize (HIGH j ltac:(lia)). cbv zeta in HIGH. rewrite WG in HIGH. destruct (NEWC j Hj) as [NI NO].
      assert (RJ := RM j ltac:(lia)). destruct RJ as [(wr & Qr & Er) Lr].
      assert (IN1 : forall ws, P (a_pred arc) ws -> Pa (S a) (a_succ arc) (ws ++ a_words arc)).
      { intros ws Hws. exists a, arc, ws. split; [lia|auto]. }
      assert (IN2 : forall ws, Pa (S a) (a_succ arc) ws -> Pa a (a_succ arc) ws \/ exists w1, P (a_pred arc) w1 /\ ws = w1 ++ a_words arc).
      { intros ws (b & arc' & w1 & Hb & E & R1 & R2 & R3). destruct (Nat.eq_dec b a) as [->|NB].
        - rewrite EA in E. inversion E; subst. right. eauto.
        - left. exists b, arc', w1. split; [lia|auto]. }
      assert (MYP : nth_error G a = Some arc /\ nth j (lastrow (if (a_pred arc =? a_succ arc)%nat then srow' else esiS st (a_pred arc)) (if (a =? a)%nat then es' else esiA st a)) 0 = nth j row 0).
      { split; [auto|]. rewrite Nat.eqb_refl. destruct (Nat.eqb_spec (a_pred arc) (a_succ arc)); [congruence|]. reflexivity. }
      destruct (into_dec a (a_succ arc)) as [IA|IA].
      * destruct (NI IA) as (NB & NP & NS). rewrite NB, NP, NS in HIGH. destruct (I_in _ _ IV _ IA) as (_ & _ & C). destruct (C j Hj) as (M & BC & PC).
        unfold bcol in BC. rewrite BC in HIGH. cbn [ltS] in HIGH. destruct M as [(wm & Qm & Em) Lm].
        assert (SUB : forall ws, Pa a (a_succ arc) ws -> Pa (S a) (a_succ arc) ws) by (intros ws (b & arc' & w1 & Hb & R); exists b, arc', w1; split; [lia|auto]).
        destruct (Z.ltb_spec (ecmW * - nth j (esiS st (a_succ arc)) 0 + wgW * Sc (a_succ arc)) (ecmW * - nth j row 0 + wgW * Sc (a_succ arc))) as [LT|GE]; destruct HIGH as (H1 & H2 & H3); rewrite H1, H2, H3.
        -- assert (LT' : nth j row 0 < nth j (esiS st (a_succ arc)) 0) by nia. split; [|split; [reflexivity|]].
           ++ split; [exists (wr ++ a_words arc); auto|]. intros ws Hws. destruct (IN2 ws Hws) as [H|(w1 & Q1 & ->)]; [|apply Lr; auto]. specialize (Lm _ H). lia.
           ++ exists a, arc. destruct MYP as [X Y]. auto.
        -- assert (GE' : nth j (esiS st (a_succ arc)) 0 <= nth j row 0) by nia. split; [|split; [reflexivity|]].
           ++ split; [exists wm; auto|]. intros ws Hws. destruct (IN2 ws Hws) as [H|(w1 & Q1 & ->)]; [apply Lm; auto|]. specialize (Lr _ Q1). cbv beta in Lr. lia.
           ++ destruct PC as (b & arc' & BA & E & R1 & R2 & R3). exists b, arc'. split; [lia|]. split; [auto|]. split; [auto|]. split; [auto|]. rewrite <- R3.
              destruct (Nat.eqb_spec (a_pred arc') (a_succ arc)) as [X|_]; [exfalso; eapply (PNS b arc'); eauto; lia|].
              destruct (Nat.eqb_spec b a); [lia|]. reflexivity.
      * rewrite (NO IA) in HIGH. cbn [ltS] in HIGH. destruct HIGH as (H1 & H2 & H3). rewrite H1, H2, H3. split; [|split; [reflexivity|]].
        -- split; [exists (wr ++ a_words arc); auto|]. intros ws Hws. destruct (IN2 ws Hws) as [(b & arc' & w1 & Hb & E & R1 & _)|(w1 & Q1 & ->)]; [exfalso; apply IA; exists b, arc'; auto|]. apply Lr; auto.
        -- exists a, arc. destruct MYP as [X Y]. auto.
    + assert (IS' : into a s).
      { destruct IS as (b & arc' & Hb & E & R). destruct (Nat.eq_dec b a) as [->|NB]; [congruence|]. exists b, arc'. split; [lia|auto]. }
      destruct (I_in _ _ IV _ IS') as ((A1 & A2 & A3) & (w & W1 & W2) & C). unfold lens, wok, bcol, pcol, upd. cbn [esiS esiA wgS bestS predS].
      destruct (Nat.eqb_spec s (a_succ arc)); [congruence|]. split; [auto|]. split; [exists w; auto|].
      intros j Hj. destruct (C j Hj) as (M & BC & (b & arc' & BA & E & R1 & R2 & R3)). split; [|split; [exact BC|]].
      * eapply mset_ext; [| |exact M]; [|auto]. intros ws. split; intros (b' & arc2 & w1 & Hb & E2 & T1 & T2).
        -- exists b', arc2, w1. split; [lia|auto].
        -- destruct (Nat.eq_dec b' a) as [->|NB]; [congruence|]. exists b', arc2, w1. split; [lia|auto].
      * exists b, arc'. split; [lia|]. split; [auto|]. split; [auto|]. split; [auto|].
        destruct (Nat.eqb_spec (a_pred arc') (a_succ arc)) as [X|_]; [exfalso; eapply (PNS b arc'); eauto; lia|].
        destruct (Nat.eqb_spec b a); [lia|]. exact R3.
  - intros s IS NI. assert (NE : s <> a_succ arc) by (intros ->; apply NI; exists a, arc; split; [lia|auto]).
    unfold upd. destruct (Nat.eqb_spec s (a_succ arc)); [congruence|]. apply (I_out _ _ IV); auto.
    intros (b & arc' & Hb & R). apply NI. exists b, arc'. split; [lia|auto].
  - intros s j IS Hj. unfold upd. destruct (Nat.eqb_spec s (a_succ arc)) as [->|_]; [|apply (I_old _ _ IV); auto].
    destruct (LOW j Hj) as (-> & -> & ->). destruct (OLDC j Hj) as (-> & -> & ->). apply (I_old _ _ IV); auto.
  - intros b arc' Hb E. unfold upd. destruct (Nat.eqb_spec (a_pred arc') (a_succ arc)) as [X|_]; [exfalso; eapply (PNS b arc'); eauto; lia|].
    destruct (Nat.eqb_spec b a) as [->|NB].
    + rewrite EA in E. inversion E; subst arc'. split; [exact OK|]. intro KZ. rewrite <- (I_rest _ _ IV a) by lia. auto.
    + apply (I_arc _ _ IV); auto. lia.
  - intros b Hb. unfold upd. destruct (Nat.eqb_spec b a); [lia|]. apply (I_rest _ _ IV). lia.
Qed.

Lemma skipn_nth : forall (l : list warc) a x xs, skipn a l = x :: xs -> nth_error l a = Some x /\ skipn (S a) l = xs.
Proof.
  intros l. induction l as [|y l IH]; intros [|a] x xs H; try discriminate.
  - inversion H; subst. auto.
  - cbn [skipn nth_error] in *. apply IH. exact H.
Qed.
Lemma proc_arcs_ok : forall arcs a st, arcs = skipn a G -> (a <= length G)%nat -> Inv a st -> exists st', proc_arcs ecmW wgW f dsz a arcs st = Some st' /\ Inv (length G) st'.
Proof.
  intros arcs. induction arcs as [|arc arcs IH]; intros a st E L IV.
  - exists st. split; [reflexivity|]. assert (a = length G); [|subst; auto]. assert (X := f_equal (@length _) E). rewrite skipn_length in X. simpl in X. lia.
  - symmetry in E. destruct (skipn_nth _ _ _ _ E) as [EN ES]. destruct (proc_arc_ok a arc st EN IV) as (st1 & E1 & IV1). cbn [proc_arcs]. rewrite E1.
    apply IH; auto. apply nth_error_Some. congruence.
Qed.

(** at the end *)
Hypothesis B_best : forall s j, into (length G) s -> (j < K)%nat -> bcol st0 s j /\ pcol (length G) st0 s j.
Lemma eagree_last : forall k prev prev' es es' j, Forall2 (eagree k) es es' -> (j < k)%nat -> nth j prev 0 = nth j prev' 0 -> nth j (lastrow prev es) 0 = nth j (lastrow prev' es') 0.
Proof.
  intros k prev prev' es es' j H Hj. revert prev prev'. induction H as [|e e' es es' A F IH]; intros prev prev' E; [exact E|].
  replace (lastrow prev (e :: es)) with (lastrow (scrVec e) es) by (destruct es; reflexivity).
  replace (lastrow prev' (e' :: es')) with (lastrow (scrVec e') es') by (destruct es'; reflexivity).
  apply IH. apply A. auto.
Qed.
Lemma Inv_full : forall st, Inv (length G) st -> Full p N st.
Proof.
  intros st IV. constructor.
  - intros s [->|H]; [split; apply (I_0 _ _ IV)|]. destruct (I_in _ _ IV _ H) as (A & B & _). auto.
  - intros s j [->|H] Hj; [apply (I_0 _ _ IV); auto|].
    assert (NZ : s <> 0%nat) by (destruct H as (b & arc & _ & E & <-); eapply succ_pos; eauto).
    destruct (Nat.lt_ge_cases j K) as [JK|JK].
    + destruct (I_old _ _ IV s j H JK) as (E1 & E2 & _). unfold bcol. rewrite E1, E2. split; [apply B_val; auto|apply B_best; auto].
    + destruct (I_in _ _ IV _ H) as (_ & _ & C). destruct (C j ltac:(lia)) as (M & B & _). split; [|exact B].
      eapply mset_ext; [| |exact M]; [|auto]. intros ws. symmetry. apply P_Pa. auto.
  - intros s j H Hj. destruct (Nat.lt_ge_cases j K) as [JK|JK].
    + destruct (B_best s j H JK) as [_ (b & arc & Hb & E & R1 & R2 & R3)]. destruct (I_old _ _ IV s j H JK) as (E1 & _ & E3).
      exists b, arc. split; [auto|]. split; [auto|]. split; [auto|]. rewrite E1, E3. split; [auto|]. rewrite <- R3. symmetry.
      eapply eagree_last; [apply (I_arc _ _ IV b arc); auto; lia|auto|].
      destruct (pred_into _ _ E) as [Z|PI].
      * rewrite Z. symmetry. apply (I_0 _ _ IV). auto.
      * symmetry. apply (I_old _ _ IV); auto. destruct PI as (b' & arc' & ? & ? & ?); exists b', arc'; split; [lia|auto].
    + destruct (I_in _ _ IV _ H) as (_ & _ & C). apply C. lia.
  - intros b arc E. apply (I_arc _ _ IV); auto. apply nth_error_Some. congruence.
Qed.
End PROC.
End I.

From Coq Require Import Arith List Lia.
From Verif Require Import AMap DecLockSpec DecLockModel.
Import ListNotations.

(** locks held at each program point, last taken first *)
Definition held (s : pc) : list lockid :=
  match s with
  | TInc _ _ | TUnlockN _ _ => [LN]
  | TFind _ _ | TUnlockU _ _ _ => [LU]
  | TBody _ i _ | TWaitQ _ i _ | TWaitU _ i _ _ => [LP i]
  | TInQ _ i _ => [LQ; LP i]
  | TInU _ i _ _ | TOutU _ i _ => [LU; LP i]
  | TDec _ | TSignal _ | TUnlockN2 _ => [LN]
  | XLockN _ | XBlocked _ | XWoken _ | XUnlockA _ | PBody => [LA]
  | XTest _ | XBody _ _ | XWaitQ _ _ | XWaitU _ _ _ | XUnlockN _ => [LN; LA]
  | XInQ _ _ => [LQ; LN; LA]
  | XInU _ _ _ | XOutU _ _ => [LU; LN; LA]
  | RBody _ | RUnlockU _ | NBody _ => [LU]
  | _ => []
  end.
Definition counted (s : pc) : bool :=
  match s with
  | TUnlockN _ _ | TLockU _ _ | TFind _ _ | TUnlockU _ _ _ | TLockP _ _ _ | TBody _ _ _ | TWaitQ _ _ _ | TInQ _ _ _ | TWaitU _ _ _ _ | TInU _ _ _ _
  | TOutU _ _ _ | TLockN2 _ | TDec _ => true
  | _ => false
  end.
(** exclusive operation past the wait loop, still holding non_atomic_op_mut *)
Definition xin (s : pc) : bool :=
  match s with XBody _ _ | XWaitQ _ _ | XInQ _ _ | XWaitU _ _ _ | XInU _ _ _ | XOutU _ _ | XUnlockN _ => true | _ => false end.
Definition user_slot (s : pc) : option (nat * nat) :=
  match s with
  | TUnlockU u i _ | TLockP u i _ | TBody u i _ | TWaitQ u i _ | TInQ u i _ | TWaitU u i _ _ | TInU u i _ _ | TOutU u i _ => Some (u, i)
  | _ => None
  end.
Definition xcall (s : pc) : option call :=
  match s with
  | XLockA c | XLockN c | XTest c | XBlocked c | XWoken c | XBody c _ | XWaitQ c _ | XInQ c _ | XWaitU c _ _ | XInU c _ _ | XOutU c _ | XUnlockN c | XUnlockA c => Some c
  | _ => None
  end.
Definition leaked (C : config) (t : nat) : Prop := exists c, In (t, c, false) (log C).

Lemma upd_same f t s : upd f t s t = s. Proof. unfold upd; destruct Nat.eq_dec; congruence. Qed.
Lemma upd_other f t s x : x <> t -> upd f t s x = f x. Proof. unfold upd; destruct Nat.eq_dec; congruence. Qed.
Lemma updl_same f t s : updl f t s t = s. Proof. unfold updl; destruct lockid_dec; congruence. Qed.
Lemma updl_other f t s x : x <> t -> updl f t s x = f x. Proof. unfold updl; destruct lockid_dec; congruence. Qed.

(** what a step does to the other threads *)
Definition others (C C' : config) t := forall x, x <> t -> thr C' x = thr C x \/ (exists c, thr C x = XBlocked c /\ thr C' x = XWoken c).
(** lock effect of a step *)
Inductive leffect (C C' : config) (t : nat) : Prop :=
| le_same : lk C' = lk C -> held (thr C' t) = held (thr C t) -> log C' = log C -> leffect C C' t
| le_acq l : lk C l = None -> lk C' = updl (lk C) l (Some t) -> held (thr C' t) = l :: held (thr C t) -> log C' = log C -> leffect C C' t
| le_rel l : lk C' = updl (lk C) l None -> held (thr C t) = l :: held (thr C' t) -> (log C' = log C \/ exists c, log C' = log C ++ [(t, c, true)]) -> leffect C C' t
| le_leak c : lk C' = lk C -> held (thr C t) = [LN; LA] -> held (thr C' t) = [] -> log C' = log C ++ [(t, c, false)] -> xin (thr C t) = true -> xcall (thr C t) = Some c -> leffect C C' t.

Lemma find_slot_fields C v C' i : find_slot C v = (C', i) -> thr C' = thr C /\ lk C' = lk C /\ cnt C' = cnt C /\ log C' = log C /\ freed C' = freed C.
Proof. unfold find_slot. destruct aget; intros H; injection H as <- <-; simpl; auto. Qed.
Lemma free_slot_fields C v : thr (free_slot C v) = thr C /\ lk (free_slot C v) = lk C /\ cnt (free_slot C v) = cnt C /\ log (free_slot C v) = log C
  /\ reg (free_slot C v) = reg C /\ nvec (free_slot C v) = nvec C.
Proof. unfold free_slot. destruct aget; simpl; auto 10. Qed.

Ltac stepcases H :=
  match type of H with next ?e ?t ?C = Some ?C' =>
    destruct e; unfold next, act in H; destruct (thr C t) eqn:E; try discriminate H;
    repeat match type of H with
    | context [match ?w with nil => _ | cons _ _ => _ end] => destruct w eqn:?
    | context [match ?a with Pre => _ | Find _ => _ end] => destruct a eqn:?
    | context [match ?c with Translate _ _ => _ | Train _ => _ | InitUser _ => _ | Clear => _ | Print => _ | Release _ => _ | IsNew _ => _ end] => destruct c eqn:?
    end; try discriminate H end.

Ltac killfind :=
  repeat match goal with
  | H : context [let (_, _) := find_slot ?C ?v in _] |- _ => destruct (find_slot C v) as [Cf fi] eqn:EF; destruct (find_slot_fields _ _ _ _ EF) as (Ft & Fl & Fc & Fg & Ff)
  end.

Lemma next_others e t C C' : next e t C = Some C' -> others C C' t.
Proof.
  intros H x Hx. stepcases H; killfind;
  unfold acquire, release, finish, set_lk, set_cnt, goto in H;
  try (match type of H with context [match lk C ?l with _ => _ end] => destruct (lk C l); try discriminate H end);
  try (match type of H with context [Nat.eq_dec (cnt C) 0] => destruct (Nat.eq_dec (cnt C) 0) end);
  injection H as <-; simpl; rewrite ?upd_other by auto; rewrite ?Ft; auto.
  all: try (left; apply upd_other; assumption).
  - unfold wake. destruct (thr C x); auto. right; eauto.
  - left. apply (f_equal (fun f => f x) (proj1 (free_slot_fields C u))).
Qed.
Lemma next_effect e t C C' : next e t C = Some C' -> leffect C C' t.
Proof.
  intros H. stepcases H; killfind;
  unfold acquire, release, finish, set_lk, set_cnt, goto in H;
  try (match type of H with context [match lk C ?l with _ => _ end] => destruct (lk C l) eqn:EL; try discriminate H end);
  try (match type of H with context [Nat.eq_dec (cnt C) 0] => destruct (Nat.eq_dec (cnt C) 0) end);
  injection H as <-.
  all: try (eapply le_acq; simpl; rewrite ?upd_same, ?E; [eassumption|reflexivity|reflexivity|reflexivity]).
  all: try (eapply le_rel; simpl; rewrite ?upd_same, ?E; [reflexivity|reflexivity|eauto; fail]).
  all: try (eapply le_leak; simpl; rewrite ?upd_same, ?E; reflexivity).
  all: try (apply le_same; simpl; rewrite ?upd_same, ?E, ?Fl, ?Fg; try reflexivity; fail).
  - apply le_same; simpl; rewrite ?upd_same, ?E; try reflexivity.
    + apply (free_slot_fields C u). + destruct (free_slot_fields C u) as (_&_&_&->&_). reflexivity.
  - apply le_same; simpl; rewrite ?upd_same, ?E; try reflexivity. destruct c; reflexivity.
Qed.

Inductive ceffect (C C' : config) (t : nat) : Prop :=
| ce_same : cnt C' = cnt C -> counted (thr C' t) = counted (thr C t) -> ceffect C C' t
| ce_inc : cnt C' = S (cnt C) -> counted (thr C t) = false -> counted (thr C' t) = true -> In LN (held (thr C t)) -> xin (thr C t) = false -> xin (thr C' t) = false -> ceffect C C' t
| ce_dec u : cnt C' = pred (cnt C) -> counted (thr C t) = true -> thr C' t = TSignal u -> ceffect C C' t.
Lemma next_cnt e t C C' : next e t C = Some C' -> ceffect C C' t.
Proof.
  intros H. stepcases H; killfind;
  unfold acquire, release, finish, set_lk, set_cnt, goto in H;
  try (match type of H with context [match lk C ?l with _ => _ end] => destruct (lk C l) eqn:EL; try discriminate H end);
  try (match type of H with context [Nat.eq_dec (cnt C) 0] => destruct (Nat.eq_dec (cnt C) 0) end);
  injection H as <-.
  all: try (apply ce_same; simpl; rewrite ?upd_same, ?E, ?Fc; reflexivity).
  all: try (apply ce_inc; simpl; rewrite ?upd_same, ?E; simpl; auto; fail).
  all: try (eapply ce_dec; simpl; rewrite ?upd_same, ?E; reflexivity).
  - apply ce_same; simpl; rewrite ?upd_same, ?E; [|reflexivity]. apply (free_slot_fields C u).
  - apply ce_same; simpl; rewrite ?upd_same, ?E; [reflexivity|]. destruct c; reflexivity.
Qed.
Inductive reffect (C C' : config) (t : nat) : Prop :=
| re_same : reg C' = reg C -> nvec C' = nvec C -> (forall p, user_slot (thr C' t) = Some p -> user_slot (thr C t) = Some p \/ aget Nat.eq_dec (fst p) (reg C') = Some (snd p)) -> reffect C C' t
| re_new v : reg C' = aset Nat.eq_dec v (nvec C) (reg C) -> nvec C' = S (nvec C) -> aget Nat.eq_dec v (reg C) = None ->
    (forall p, user_slot (thr C' t) = Some p -> user_slot (thr C t) = Some p \/ aget Nat.eq_dec (fst p) (reg C') = Some (snd p)) -> reffect C C' t
| re_clear : reg C' = [] -> nvec C' = 0 -> xin (thr C t) = true -> user_slot (thr C' t) = None -> reffect C C' t.
Lemma next_reg e t C C' : next e t C = Some C' -> reffect C C' t.
Proof.
  intros H. stepcases H; unfold find_slot in H;
  unfold acquire, release, finish, set_lk, set_cnt, goto, broadcast, clear_all in H;
  try (match type of H with context [match lk C ?l with _ => _ end] => destruct (lk C l) eqn:EL; try discriminate H end);
  try (match type of H with context [match aget ?d ?v ?r with _ => _ end] => destruct (aget d v r) eqn:EG; try discriminate H end);
  try (match type of H with context [Nat.eq_dec (cnt C) 0] => destruct (Nat.eq_dec (cnt C) 0) end);
  injection H as <-.
  all: try (apply re_same; simpl; rewrite ?upd_same, ?E; simpl; auto; intros p Hp; injection Hp as <-; auto; fail).
  all: try (apply re_clear; simpl; rewrite ?upd_same, ?E; simpl; auto; fail).
  all: try (eapply re_new; simpl; [reflexivity|reflexivity|assumption|rewrite ?upd_same, ?E; simpl; intros p Hp; try discriminate Hp; injection Hp as <-; simpl; rewrite ?aget_aset_same; auto]).
  all: try (apply re_same; simpl; [apply (free_slot_fields C u)|apply (free_slot_fields C u)|rewrite upd_same; simpl; discriminate]).
  all: try (apply re_same; simpl; [reflexivity|reflexivity|rewrite upd_same; destruct c; discriminate]).
  all: apply re_same; simpl; [reflexivity|reflexivity|rewrite upd_same; simpl; discriminate].
Qed.
Lemma next_xin e t C C' : next e t C = Some C' -> xin (thr C' t) = true -> xin (thr C t) = true \/ cnt C' = 0.
Proof.
  intros H. stepcases H; killfind;
  unfold acquire, release, finish, set_lk, set_cnt, goto in H;
  try (match type of H with context [match lk C ?l with _ => _ end] => destruct (lk C l) eqn:EL; try discriminate H end);
  try (match type of H with context [Nat.eq_dec (cnt C) 0] => destruct (Nat.eq_dec (cnt C) 0) end);
  injection H as <-; simpl; rewrite ?upd_same; simpl; auto.
  destruct c; discriminate.
Qed.
Lemma next_blk e t C C' c : next e t C = Some C' -> thr C' t = XBlocked c -> cnt C' > 0.
Proof.
  intros H. stepcases H; killfind;
  unfold acquire, release, finish, set_lk, set_cnt, goto in H;
  try (match type of H with context [match lk C ?l with _ => _ end] => destruct (lk C l) eqn:EL; try discriminate H end);
  try (match type of H with context [Nat.eq_dec (cnt C) 0] => destruct (Nat.eq_dec (cnt C) 0) end);
  injection H as <-; simpl; rewrite ?upd_same; simpl; try discriminate; try lia.
  destruct c0; discriminate.
Qed.
Lemma next_signal e t C C' u : next e t C = Some C' -> thr C t = TSignal u ->
  cnt C' = cnt C /\ (cnt C = 0 -> forall x c, thr C' x <> XBlocked c).
Proof.
  intros H Eq. destruct e; unfold next, act in H; rewrite Eq in H; try discriminate. injection H as <-.
  destruct (Nat.eq_dec (cnt C) 0) as [e|e]; simpl; (split; [reflexivity|]); intros Hz x c; [|contradiction].
  unfold upd, wake. destruct Nat.eq_dec; [discriminate|]. destruct (thr C x); discriminate.
Qed.
Lemma next_xcall e t C C' c : next e t C = Some C' -> xcall (thr C' t) = Some c -> xcall (thr C t) = Some c \/ exclusive c.
Proof.
  intros H. stepcases H; killfind;
  unfold acquire, release, finish, set_lk, set_cnt, goto in H;
  try (match type of H with context [match lk C ?l with _ => _ end] => destruct (lk C l) eqn:EL; try discriminate H end);
  try (match type of H with context [Nat.eq_dec (cnt C) 0] => destruct (Nat.eq_dec (cnt C) 0) end);
  injection H as <-; simpl; rewrite ?upd_same; simpl; try discriminate; auto.
  destruct c0; simpl; try discriminate; intros Q; injection Q as <-; right; exact I.
Qed.

Record inv (C : config) : Prop := {
  i_held : forall t l, In l (held (thr C t)) -> lk C l = Some t;
  i_own : forall t l, lk C l = Some t -> In l (held (thr C t)) \/ ((l = LN \/ l = LA) /\ leaked C t);
  i_leak : forall t, leaked C t -> lk C LA = Some t /\ lk C LN = Some t /\ ~ In LA (held (thr C t)) /\ ~ In LN (held (thr C t)) /\ cnt C = 0;
  i_cnt : exists L, NoDup L /\ (forall t, In t L <-> counted (thr C t) = true) /\ length L = cnt C;
  i_xin : forall t, xin (thr C t) = true -> cnt C = 0;
  i_blk : forall t c, thr C t = XBlocked c -> cnt C > 0 \/ exists t' u, thr C t' = TSignal u;
  i_slot : forall t u i, user_slot (thr C t) = Some (u, i) -> aget Nat.eq_dec u (reg C) = Some i;
  i_reg : forall u i, aget Nat.eq_dec u (reg C) = Some i -> i < nvec C;
  i_inj : forall u v i, aget Nat.eq_dec u (reg C) = Some i -> aget Nat.eq_dec v (reg C) = Some i -> u = v;
  i_xcall : forall t c, xcall (thr C t) = Some c -> exclusive c;
  i_fin : exists L, NoDup L /\ forall t, thr C t <> Idle -> In t L }.

Lemma inv_init : inv init.
Proof.
  constructor; simpl; try discriminate; try contradiction; auto.
  - intros t [c []].
  - exists []. split; [constructor|]. split; [|reflexivity]. intros t; simpl. split; [intros []|discriminate].
  - exists []. split; [constructor|]. congruence.
Qed.
Lemma held_other C C' t : others C C' t -> forall x, x <> t -> held (thr C' x) = held (thr C x).
Proof. intros H x Hx. destruct (H x Hx) as [->|(c & -> & ->)]; reflexivity. Qed.
Lemma counted_other C C' t : others C C' t -> forall x, x <> t -> counted (thr C' x) = counted (thr C x).
Proof. intros H x Hx. destruct (H x Hx) as [->|(c & -> & ->)]; reflexivity. Qed.
Lemma xin_other C C' t : others C C' t -> forall x, x <> t -> xin (thr C' x) = xin (thr C x).
Proof. intros H x Hx. destruct (H x Hx) as [->|(c & -> & ->)]; reflexivity. Qed.
Lemma slot_other C C' t : others C C' t -> forall x, x <> t -> user_slot (thr C' x) = user_slot (thr C x).
Proof. intros H x Hx. destruct (H x Hx) as [->|(c & -> & ->)]; reflexivity. Qed.
Lemma xcall_other C C' t : others C C' t -> forall x, x <> t -> xcall (thr C' x) = xcall (thr C x).
Proof. intros H x Hx. destruct (H x Hx) as [->|(c & -> & ->)]; reflexivity. Qed.
Lemma held_nodup s : NoDup (held s).
Proof. destruct s; simpl; repeat constructor; simpl; try tauto; intuition discriminate. Qed.
Lemma xin_held s : xin s = true -> In LN (held s) /\ In LA (held s).
Proof. destruct s; simpl; try discriminate; tauto. Qed.
Lemma leaked_iff C C' t x : leffect C C' t -> (leaked C x -> leaked C' x) /\ (leaked C' x -> leaked C x \/ (x = t /\ exists c, log C' = log C ++ [(t, c, false)])).
Proof.
  intros []; unfold leaked.
  - rewrite H1. tauto.
  - rewrite H2. tauto.
  - destruct H1 as [->|[c ->]]; [tauto|]. split; intros [c' Hc].
    + exists c'. apply in_or_app; auto.
    + apply in_app_or in Hc. destruct Hc as [Hc|[Hc|[]]]; [left; eauto|discriminate].
  - rewrite H2. split; intros [c' Hc].
    + exists c'. apply in_or_app; auto.
    + apply in_app_or in Hc. destruct Hc as [Hc|[Hc|[]]]; [left; eauto|]. injection Hc as <- _. right; eauto.
Qed.
Lemma length_zero_counted C x : inv C -> counted (thr C x) = true -> cnt C > 0.
Proof. intros I Hc. destruct (i_cnt C I) as (L & N & HL & Hl). apply HL in Hc. destruct L; [destruct Hc|simpl in Hl; lia]. Qed.

Lemma inv_step e t C C' : inv C -> next e t C = Some C' -> inv C'.
Proof.
  intros I H.
  pose proof (next_others _ _ _ _ H) as HO. pose proof (next_effect _ _ _ _ H) as HE. pose proof (next_cnt _ _ _ _ H) as HC. pose proof (next_reg _ _ _ _ H) as HR.
  pose proof (held_other _ _ _ HO) as Hh. pose proof (counted_other _ _ _ HO) as Hcn. pose proof (xin_other _ _ _ HO) as Hx.
  pose proof (slot_other _ _ _ HO) as Hs. pose proof (xcall_other _ _ _ HO) as Hxc.
  assert (Hheld : forall x l, In l (held (thr C' x)) -> lk C' l = Some x).
  { intros x l Hl. destruct (Nat.eq_dec x t) as [->|Hne].
    - destruct HE as [HL HH _|l0 H0 HL HH _|l0 HL HH _|c HL HH HH' _ _ _]; rewrite HL.
      + apply (i_held C I). rewrite <- HH; auto.
      + rewrite HH in Hl. destruct (lockid_dec l l0) as [->|Hn]; [apply updl_same|]. rewrite updl_other by auto. destruct Hl; [congruence|]. apply (i_held C I); auto.
      + assert (l <> l0). { intros ->. pose proof (held_nodup (thr C t)) as Nd. rewrite HH in Nd. inversion Nd; contradiction. }
        rewrite updl_other by auto. apply (i_held C I). rewrite HH; right; auto.
      + rewrite HH' in Hl; destruct Hl.
    - rewrite Hh in Hl by auto. apply (i_held C I) in Hl.
      destruct HE as [HL HH _|l0 H0 HL HH _|l0 HL HH _|c HL HH HH' _ _ _]; rewrite HL; auto.
      + rewrite updl_other; auto. congruence.
      + rewrite updl_other; auto. intros ->. assert (lk C l0 = Some t) by (apply (i_held C I); rewrite HH; left; auto). congruence. }
  assert (Hown : forall x l, lk C' l = Some x -> In l (held (thr C' x)) \/ ((l = LN \/ l = LA) /\ leaked C' x)).
  { intros x l Hl. destruct (leaked_iff C C' t x HE) as [Hk _].
    destruct HE as [HL HH _|l0 H0 HL HH _|l0 HL HH _|c HL HH HH' HG _ _]; rewrite HL in Hl.
    - destruct (i_own C I x l Hl) as [J|[J1 J2]]; [left|right; auto]. destruct (Nat.eq_dec x t) as [->|]; [rewrite HH|rewrite Hh]; auto.
    - destruct (lockid_dec l l0) as [->|Hn].
      + rewrite updl_same in Hl. injection Hl as <-. left. rewrite HH; left; auto.
      + rewrite updl_other in Hl by auto. destruct (i_own C I x l Hl) as [J|[J1 J2]]; [left|right; auto]. destruct (Nat.eq_dec x t) as [->|]; [rewrite HH; right|rewrite Hh]; auto.
    - destruct (lockid_dec l l0) as [->|Hn]; [rewrite updl_same in Hl; discriminate|].
      rewrite updl_other in Hl by auto. destruct (i_own C I x l Hl) as [J|[J1 J2]]; [left|right; auto].
      destruct (Nat.eq_dec x t) as [->|]; [|rewrite Hh; auto]. rewrite HH in J. destruct J; [congruence|auto].
    - destruct (i_own C I x l Hl) as [J|[J1 J2]]; [|right; auto].
      destruct (Nat.eq_dec x t) as [->|]; [|left; rewrite Hh; auto]. right. rewrite HH in J. split; [destruct J as [<-|[<-|[]]]; auto|].
      exists c. rewrite HG. apply in_or_app; right; left; auto. }
  assert (Hno : forall x, leaked C x -> ~ In LN (held (thr C t)) /\ ~ In LA (held (thr C t))).
  { intros x Hx0. destruct (i_leak C I x Hx0) as (A1 & A2 & A3 & A4 & A5).
    split; intros Hin; pose proof (i_held C I t _ Hin) as Q; assert (x = t) by congruence; subst x; contradiction. }
  assert (Hleak : forall x, leaked C' x -> lk C' LA = Some x /\ lk C' LN = Some x /\ ~ In LA (held (thr C' x)) /\ ~ In LN (held (thr C' x)) /\ cnt C' = 0).
  { intros x Hl. destruct (leaked_iff C C' t x HE) as [_ Hk]. destruct (Hk Hl) as [Hold|[-> [c Hc]]].
    - destruct (i_leak C I x Hold) as (A1 & A2 & A3 & A4 & A5). destruct (Hno x Hold) as [B1 B2].
      assert (C1 : cnt C' = 0).
      { destruct HC as [Q _|Q _ _ Q2 _ _|u Q _ _]; [congruence|contradiction|rewrite Q, A5; reflexivity]. }
      assert (L1 : lk C' LA = Some x /\ lk C' LN = Some x).
      { destruct HE as [HL HH _|l0 H0 HL HH _|l0 HL HH _|c HL HH HH' HG _ _]; rewrite HL; auto.
        - rewrite !updl_other by congruence. auto.
        - rewrite HH in B1, B2. rewrite !updl_other; auto; intros <-; [apply B1|apply B2]; left; auto. }
      destruct L1 as [L1 L2]. repeat split; auto.
      + destruct (Nat.eq_dec x t) as [->|]; [|rewrite Hh; auto]. intros Hin.
        destruct HE as [HL HH _|l0 H0 HL HH _|l0 HL HH _|c HL HH HH' HG _ _].
        * rewrite HH in Hin; auto.
        * rewrite HH in Hin. destruct Hin as [->|]; [congruence|auto].
        * apply A3. rewrite HH; right; auto.
        * rewrite HH' in Hin; destruct Hin.
      + destruct (Nat.eq_dec x t) as [->|]; [|rewrite Hh; auto]. intros Hin.
        destruct HE as [HL HH _|l0 H0 HL HH _|l0 HL HH _|c HL HH HH' HG _ _].
        * rewrite HH in Hin; auto.
        * rewrite HH in Hin. destruct Hin as [->|]; [congruence|auto].
        * apply A4. rewrite HH; right; auto.
        * rewrite HH' in Hin; destruct Hin.
    - destruct HE as [HL HH HG|l0 H0 HL HH HG|l0 HL HH HG|c0 HL HH HH' HG HX _].
      + rewrite HG in Hc. apply (f_equal (@length _)) in Hc. rewrite app_length in Hc; simpl in Hc; lia.
      + rewrite HG in Hc. apply (f_equal (@length _)) in Hc. rewrite app_length in Hc; simpl in Hc; lia.
      + exfalso. destruct HG as [HG|[c' HG]]; rewrite HG in Hc.
        * apply (f_equal (@length _)) in Hc. rewrite app_length in Hc; simpl in Hc; lia.
        * apply app_inj_tail in Hc. destruct Hc as [_ Hc]. discriminate.
      + rewrite HL. assert (lk C LA = Some t /\ lk C LN = Some t) as [Q1 Q2] by (split; apply (i_held C I); rewrite HH; simpl; auto).
        rewrite HH'. pose proof (i_xin C I t HX) as Z. repeat split; auto.
        destruct HC as [Q _|Q _ _ _ HX' _|u Q _ _]; [congruence|congruence|rewrite Q, Z; reflexivity]. }
  constructor; auto.
  - destruct (i_cnt C I) as (L & N & HL & Hl). destruct HC as [Q1 Q2|Q1 Q2 Q3 _ _ _|u Q1 Q2 Q3].
    + exists L. split; auto. split; [|congruence]. intros x. rewrite HL. destruct (Nat.eq_dec x t) as [->|]; [rewrite Q2|rewrite Hcn]; tauto.
    + assert (~ In t L) by (rewrite HL, Q2; discriminate).
      exists (t :: L). split; [constructor; auto|]. split; [|simpl; congruence]. intros x. simpl. destruct (Nat.eq_dec x t) as [->|Hn]; [split; auto|].
      rewrite Hcn by auto. rewrite <- HL. intuition congruence.
    + assert (In t L) as Hin by (apply HL; auto). apply in_split in Hin. destruct Hin as (l1 & l2 & ->).
      exists (l1 ++ l2). pose proof (NoDup_remove_1 _ _ _ N) as N1. pose proof (NoDup_remove_2 _ _ _ N) as N2. split; auto. split.
      * intros x. destruct (Nat.eq_dec x t) as [->|Hn]; [rewrite Q3; simpl; split; [contradiction|discriminate]|].
        rewrite Hcn by auto. rewrite <- HL. rewrite !in_app_iff. simpl. intuition congruence.
      * rewrite app_length in *. simpl in Hl. lia.
  - intros x Hxx. destruct (Nat.eq_dec x t) as [->|Hn].
    + destruct (next_xin _ _ _ _ H Hxx) as [Q|Q]; auto. pose proof (i_xin C I t Q) as Z. destruct HC as [Q1 _|Q1 _ _ _ Q2 _|u Q1 _ _]; [congruence|congruence|rewrite Q1, Z; reflexivity].
    + rewrite Hx in Hxx by auto. pose proof (i_xin C I x Hxx) as Z. destruct HC as [Q1 _|Q1 _ _ Q2 _ _|u Q1 _ _]; [congruence| |rewrite Q1, Z; reflexivity].
      exfalso. apply (i_held C I) in Q2. pose proof (i_held C I x LN (proj1 (xin_held _ Hxx))). congruence.
  - intros x c Hb. destruct (Nat.eq_dec x t) as [->|Hn]; [left; eapply next_blk; eauto|].
    assert (Hb' : thr C x = XBlocked c) by (destruct (HO x Hn) as [<-|(c' & ? & ?)]; congruence).
    destruct (i_blk C I x c Hb') as [Q|(t' & u & Q)].
    + destruct HC as [Q1 _|Q1 _ _ _ _ _|u Q1 _ Q2]; [left; lia|left; lia|right; eauto].
    + destruct (Nat.eq_dec t' t) as [->|Hn'].
      * destruct (next_signal _ _ _ _ _ H Q) as [Q1 Q2]. left. destruct (Nat.eq_dec (cnt C) 0) as [Z|]; [|lia]. exfalso. apply (Q2 Z x c); auto.
      * right. exists t', u. destruct (HO t' Hn') as [->|(c' & ? & ?)]; congruence.
  - intros x u i Hu. destruct (Nat.eq_dec x t) as [->|Hn].
    + destruct HR as [R1 R2 R3|v R1 R2 R3 R4|R1 R2 R3 R4].
      * destruct (R3 _ Hu) as [J|J]; auto. rewrite R1. apply (i_slot C I t); auto.
      * destruct (R4 _ Hu) as [J|J]; auto. apply (i_slot C I) in J. rewrite R1. rewrite aget_aset_other; auto. congruence.
      * congruence.
    + rewrite Hs in Hu by auto. destruct HR as [R1 R2 R3|v R1 R2 R3 R4|R1 R2 R3 R4].
      * rewrite R1. apply (i_slot C I x); auto.
      * apply (i_slot C I) in Hu. rewrite R1, aget_aset_other; auto. congruence.
      * exfalso. pose proof (i_xin C I t R3) as Z. assert (counted (thr C x) = true) as Q by (destruct (thr C x); simpl in *; congruence).
        pose proof (length_zero_counted C x I Q). lia.
  - intros u i. destruct HR as [R1 R2 _|v R1 R2 R3 _|R1 R2 _ _]; rewrite R1, R2.
    + apply (i_reg C I).
    + rewrite aget_aset. destruct Nat.eq_dec; [intros Q; injection Q; lia|]. intros Q; apply (i_reg C I) in Q; lia.
    + simpl. discriminate.
  - intros u v i. destruct HR as [R1 R2 _|w R1 R2 R3 _|R1 R2 _ _]; rewrite R1.
    + apply (i_inj C I).
    + rewrite !aget_aset. destruct (Nat.eq_dec u w) as [->|], (Nat.eq_dec v w) as [->|]; auto.
      * intros Q J; injection Q as <-. apply (i_reg C I) in J. lia.
      * intros J Q; injection Q as <-. apply (i_reg C I) in J. lia.
      * apply (i_inj C I).
    + simpl; discriminate.
  - intros x c Hc. destruct (Nat.eq_dec x t) as [->|Hn].
    + destruct (next_xcall _ _ _ _ _ H Hc) as [Q|Q]; auto. apply (i_xcall C I t); auto.
    + rewrite Hxc in Hc by auto. apply (i_xcall C I x); auto.
  - destruct (i_fin C I) as (L & N & HL). destruct (in_dec Nat.eq_dec t L) as [Ht|Ht]; [exists L|exists (t :: L)]; (split; [try constructor; auto|]); intros x Hi.
    + destruct (Nat.eq_dec x t) as [->|Hn]; auto. apply HL. destruct (HO x Hn) as [<-|(c & Q & _)]; congruence.
    + destruct (Nat.eq_dec x t) as [->|Hn]; [left; auto|]. right. apply HL. destruct (HO x Hn) as [<-|(c & Q & _)]; congruence.
Qed.
Lemma steps_app C C' C'' : steps C C' -> steps C' C'' -> steps C C''.
Proof. induction 1; intros; auto. econstructor; eauto. Qed.
Lemma inv_steps C C' : steps C C' -> inv C -> inv C'.
Proof. induction 1; intros I; auto. apply IHsteps. eapply inv_step; eauto. Qed.
Lemma reachable_inv C : reachable C -> inv C.
Proof. intros H. apply (inv_steps _ _ H inv_init). Qed.
Lemma exec_steps s : forall C C', exec s C = Some C' -> steps C C'.
Proof.
  induction s as [|[e t] s IH]; simpl; intros C C' H; [injection H as <-; constructor|].
  destruct (next e t C) eqn:E; [|discriminate]. econstructor; eauto.
Qed.
Lemma run_steps s : forall C C', run s C = Some C' -> steps C C'.
Proof.
  induction s as [|t s IH]; simpl; intros C C' H; [injection H as <-; constructor|].
  destruct (act t C) eqn:E; [|discriminate]. apply (st_step C c C' Act t); auto.
Qed.

(** C39 *)
Lemma exclusive_body C t c : inv C -> in_body (thr C t) = Some c -> exclusive c -> xin (thr C t) = true.
Proof. intros I H X. destruct (thr C t); simpl in *; try discriminate; auto; injection H as <-; destruct X. Qed.
Lemma exclusion C : reachable C -> forall t t' c c', in_body (thr C t) = Some c -> in_body (thr C t') = Some c' -> exclusive c -> t' = t.
Proof.
  intros R t t' c c' H H' X. apply reachable_inv in R. pose proof (exclusive_body C t c R H X) as Hx.
  pose proof (i_held C R t LA (proj2 (xin_held _ Hx))) as HA. pose proof (i_xin C R t Hx) as Z.
  destruct (counted (thr C t')) eqn:Ec.
  - pose proof (length_zero_counted C t' R Ec). lia.
  - assert (In LA (held (thr C t'))) as J by (destruct (thr C t'); simpl in *; try discriminate; tauto).
    apply (i_held C R) in J. congruence.
Qed.
Lemma body_slot C t u w : inv C -> in_body (thr C t) = Some (Translate u w) -> exists i, user_slot (thr C t) = Some (u, i) /\ In (LP i) (held (thr C t)) /\ slot_in_use (thr C t) = Some i.
Proof.
  intros I H. assert (X : forall c, xcall (thr C t) = Some c -> exclusive c) by (apply (i_xcall C I)).
  destruct (thr C t); simpl in *; try discriminate; inversion H; subst; try (eexists; split; [reflexivity|]; split; [simpl; auto|reflexivity]); exfalso; apply (X _ eq_refl).
Qed.
Lemma same_user C : reachable C -> forall t t' u w w', in_body (thr C t) = Some (Translate u w) -> in_body (thr C t') = Some (Translate u w') -> t' = t.
Proof.
  intros R t t' u w w' H H'. apply reachable_inv in R.
  destruct (body_slot C t u w R H) as (i & S1 & S2 & _). destruct (body_slot C t' u w' R H') as (i' & S1' & S2' & _).
  apply (i_slot C R) in S1. apply (i_slot C R) in S1'. assert (i' = i) by congruence. subst.
  apply (i_held C R) in S2. apply (i_held C R) in S2'. congruence.
Qed.
Lemma own_slot C : reachable C -> forall t t' u u' w w' i, in_body (thr C t) = Some (Translate u w) -> in_body (thr C t') = Some (Translate u' w') ->
  slot_in_use (thr C t) = Some i -> slot_in_use (thr C t') = Some i -> t' = t.
Proof.
  intros R t t' u u' w w' i H H' A B. apply reachable_inv in R.
  destruct (body_slot C t u w R H) as (j & S1 & S2 & S3). destruct (body_slot C t' u' w' R H') as (j' & S1' & S2' & S3').
  assert (j = i) by congruence. assert (j' = i) by congruence. subst.
  apply (i_held C R) in S2. apply (i_held C R) in S2'. congruence.
Qed.
Lemma counter C : reachable C -> exists L, NoDup L /\ (forall t, In t L <-> counted (thr C t) = true) /\ length L = cnt C.
Proof. intros R. apply (i_cnt C (reachable_inv C R)). Qed.

(** C40: progress *)
Definition no_failure (C : config) : Prop := forall t c, ~ In (t, c, false) (log C).
Definition can_step (C : config) : Prop := exists t C', act t C = Some C'.
Lemma can_act C t C' : act t C = Some C' -> can_step C. Proof. intros; exists t, C'; auto. Qed.
Lemma acq_free C t l s : lk C l = None -> exists C', acquire C t l s = Some C'.
Proof. unfold acquire; intros ->; eauto. Qed.
Lemma holder C l t : inv C -> no_failure C -> lk C l = Some t -> In l (held (thr C t)).
Proof. intros I F H. destruct (i_own C I t l H) as [|[_ [c Hc]]]; auto. destruct (F _ _ Hc). Qed.
(** a thread that waits for nothing can step *)
Ltac go t := exists t; unfold act; match goal with E : thr ?C t = _ |- _ => rewrite E end;
  unfold release; try (destruct (find_slot _ _)); try (destruct (Nat.eq_dec _ 0)); eauto.
Lemma prog_Q C : inv C -> no_failure C -> forall t, lk C LQ = Some t -> can_step C.
Proof. intros I F t H. apply holder in H; auto. unfold can_step. destruct (thr C t) eqn:E; simpl in H; try (intuition discriminate); go t. Qed.
Lemma prog_U C : inv C -> no_failure C -> forall t, lk C LU = Some t -> can_step C.
Proof. intros I F t H. apply holder in H; auto. unfold can_step. destruct (thr C t) eqn:E; simpl in H; try (intuition discriminate); go t. Qed.
Lemma try_Q C t s s' : inv C -> no_failure C -> thr C t = s -> (act t C = acquire C t LQ s') -> can_step C.
Proof. intros I F _ H. destruct (lk C LQ) eqn:E; [eapply prog_Q; eauto|]. destruct (acq_free C t LQ s' E) as [C' Q]. exists t, C'. congruence. Qed.
Lemma try_U C t s s' : inv C -> no_failure C -> thr C t = s -> (act t C = acquire C t LU s') -> can_step C.
Proof. intros I F _ H. destruct (lk C LU) eqn:E; [eapply prog_U; eauto|]. destruct (acq_free C t LU s' E) as [C' Q]. exists t, C'. congruence. Qed.
Lemma body_step C t u i w : thr C t = TBody u i w -> can_step C.
Proof. intros E. destruct w as [|[|v] w]; (exists t; unfold act; rewrite E; unfold release; eauto). Qed.
Lemma xbody_step C t c w : thr C t = XBody c w -> can_step C.
Proof. intros E. destruct w as [|[|v] w]; destruct c; (exists t; unfold act; rewrite E; unfold release; eexists; reflexivity). Qed.
Lemma prog_P C : inv C -> no_failure C -> forall i t, lk C (LP i) = Some t -> can_step C.
Proof.
  intros I F i t H. apply holder in H; auto. destruct (thr C t) eqn:E; simpl in H; try (intuition discriminate).
  - eapply body_step; eauto.
  - eapply try_Q; eauto. unfold act; rewrite E; reflexivity.
  - go t.
  - eapply try_U; eauto. unfold act; rewrite E; reflexivity.
  - go t.
  - go t.
Qed.
Lemma prog_N C : inv C -> no_failure C -> forall t, lk C LN = Some t -> can_step C.
Proof.
  intros I F t H. apply holder in H; auto. destruct (thr C t) eqn:E; simpl in H; try (intuition discriminate); try (go t; fail).
  - eapply xbody_step; eauto.
  - eapply try_Q; eauto. unfold act; rewrite E; reflexivity.
  - eapply try_U; eauto. unfold act; rewrite E; reflexivity.
Qed.
Lemma try_N C t s s' : inv C -> no_failure C -> thr C t = s -> (act t C = acquire C t LN s') -> can_step C.
Proof. intros I F _ H. destruct (lk C LN) eqn:E; [eapply prog_N; eauto|]. destruct (acq_free C t LN s' E) as [C' Q]. exists t, C'. congruence. Qed.
Lemma try_P C t s s' i : inv C -> no_failure C -> thr C t = s -> (act t C = acquire C t (LP i) s') -> can_step C.
Proof. intros I F _ H. destruct (lk C (LP i)) eqn:E; [eapply prog_P; eauto|]. destruct (acq_free C t (LP i) s' E) as [C' Q]. exists t, C'. congruence. Qed.
Lemma prog_counted C : inv C -> no_failure C -> forall t, counted (thr C t) = true -> can_step C.
Proof.
  intros I F t H. destruct (thr C t) eqn:E; simpl in H; try discriminate; try (go t; fail).
  all: try (eapply body_step; eauto; fail).
  all: try (eapply try_Q; [eauto|eauto|eauto|unfold act; rewrite E; reflexivity]).
  all: try (eapply try_U; [eauto|eauto|eauto|unfold act; rewrite E; reflexivity]).
  all: try (eapply try_N; [eauto|eauto|eauto|unfold act; rewrite E; reflexivity]).
  all: try (eapply try_P; [eauto|eauto|eauto|unfold act; rewrite E; reflexivity]).
Qed.
Lemma prog_A C : inv C -> no_failure C -> forall t, lk C LA = Some t -> can_step C.
Proof.
  intros I F t H. apply holder in H; auto. destruct (thr C t) eqn:E; simpl in H; try (intuition discriminate); try (go t; fail).
  all: try (eapply try_Q; [eauto|eauto|eauto|unfold act; rewrite E; reflexivity]).
  all: try (eapply try_U; [eauto|eauto|eauto|unfold act; rewrite E; reflexivity]).
  all: try (eapply try_N; [eauto|eauto|eauto|unfold act; rewrite E; reflexivity]).
  - destruct (i_blk C I t c E) as [Q|(t' & u & Q)].
    + destruct (i_cnt C I) as (L & N & HL & Hl). destruct L as [|x L]; [simpl in Hl; lia|].
      apply (prog_counted C I F x). apply HL. left; auto.
    + clear E. rename Q into E. exists t'. unfold act. rewrite E. eauto.
  - eapply xbody_step; eauto.
Qed.
Lemma try_A C t s s' : inv C -> no_failure C -> thr C t = s -> (act t C = acquire C t LA s') -> can_step C.
Proof. intros I F _ H. destruct (lk C LA) eqn:E; [eapply prog_A; eauto|]. destruct (acq_free C t LA s' E) as [C' Q]. exists t, C'. congruence. Qed.
Lemma progress C : inv C -> no_failure C -> forall t, thr C t <> Idle -> can_step C.
Proof.
  intros I F t H. destruct (thr C t) eqn:E; try contradiction; try (go t; fail).
  all: try (apply (prog_counted C I F t); rewrite E; reflexivity).
  all: try (eapply try_Q; [eauto|eauto|eauto|unfold act; rewrite E; reflexivity]).
  all: try (eapply try_U; [eauto|eauto|eauto|unfold act; rewrite E; reflexivity]).
  all: try (eapply try_N; [eauto|eauto|eauto|unfold act; rewrite E; reflexivity]).
  all: try (eapply try_A; [eauto|eauto|eauto|unfold act; rewrite E; reflexivity]).
  - apply (prog_A C I F t). apply (i_held C I). rewrite E. simpl; auto.
  - eapply xbody_step; eauto.
Qed.

(** C40: every schedule of the running calls is finite *)
Definition wt (s : pc) : nat :=
  match s with
  | Idle => 0
  | TLockN _ w => 24 + 4 * length w | TInc _ w => 23 + 4 * length w | TUnlockN _ w => 22 + 4 * length w
  | TLockU _ w => 21 + 4 * length w | TFind _ w => 20 + 4 * length w | TUnlockU _ _ w => 19 + 4 * length w
  | TLockP _ _ w => 18 + 4 * length w | TBody _ _ w => 17 + 4 * length w
  | TWaitQ _ _ w => 20 + 4 * length w | TInQ _ _ w => 18 + 4 * length w
  | TWaitU _ _ _ w => 20 + 4 * length w | TInU _ _ _ w => 19 + 4 * length w | TOutU _ _ w => 18 + 4 * length w
  | TLockN2 _ => 16 | TDec _ => 15 | TSignal _ => 14 | TUnlockN2 _ => 1
  | XLockA c => 14 + 4 * length (work_of c) | XLockN c => 13 + 4 * length (work_of c) | XTest c => 11 + 4 * length (work_of c)
  | XBlocked c => 10 + 4 * length (work_of c) - 8 | XWoken c => 12 + 4 * length (work_of c)
  | XBody _ w => 5 + 4 * length w
  | XWaitQ _ w => 8 + 4 * length w | XInQ _ w => 6 + 4 * length w
  | XWaitU _ _ w => 8 + 4 * length w | XInU _ _ w => 7 + 4 * length w | XOutU _ w => 6 + 4 * length w
  | XUnlockN _ => 3 | XUnlockA _ => 2
  | PLockA => 2 | PBody => 1
  | RLockU _ => 3 | RBody _ => 2 | RUnlockU _ => 1
  | NLockU _ => 2 | NBody _ => 1
  end.
Definition sumw (f : nat -> pc) (L : list nat) : nat := fold_right (fun t a => wt (f t) + a) 0 L.
Lemma sumw_ext f g L : (forall t, In t L -> wt (f t) = wt (g t)) -> sumw f L = sumw g L.
Proof. induction L; simpl; intros H; auto. Qed.
Lemma sumw_upd f t s L : NoDup L -> In t L -> sumw (upd f t s) L + wt (f t) = sumw f L + wt s.
Proof.
  induction L as [|a L IH]; simpl; intros N H; [tauto|]. inversion N; subst. destruct (Nat.eq_dec a t) as [->|Hn].
  - rewrite upd_same. rewrite (sumw_ext _ f L); [lia|]. intros x Hx. rewrite upd_other; auto. congruence.
  - rewrite upd_other by auto. destruct H; [congruence|]. specialize (IH H3 H). lia.
Qed.
(** at most one thread is inside pthread_cond_wait, so a broadcast wakes at most one *)
Lemma wake_sum C L : inv C -> NoDup L -> sumw (wake (thr C)) L <= sumw (thr C) L + 10.
Proof.
  intros I N. induction L as [|a L IH]; simpl; [lia|]. inversion N; subst. specialize (IH H2).
  destruct (thr C a) eqn:E; try (unfold wake at 1; rewrite E; lia).
  rewrite (sumw_ext (wake (thr C)) (thr C) L).
  - unfold wake; rewrite E; simpl; lia.
  - intros x Hx. unfold wake. destruct (thr C x) eqn:Ex; auto. exfalso.
    assert (lk C LA = Some a) by (apply (i_held C I); rewrite E; simpl; auto).
    assert (lk C LA = Some x) by (apply (i_held C I); rewrite Ex; simpl; auto). congruence.
Qed.

Lemma act_thr C t C' : act t C = Some C' -> exists s, wt s + 11 <= wt (thr C t) /\ thr C' = upd (wake (thr C)) t s \/ wt s < wt (thr C t) /\ thr C' = upd (thr C) t s.
Proof.
  intros H0. assert (H : next Act t C = Some C') by exact H0. clear H0.
  unfold next, act in H; destruct (thr C t) eqn:E; try discriminate H;
  repeat match type of H with
    | context [match ?w with nil => _ | cons _ _ => _ end] => destruct w eqn:?
    | context [match ?a with Pre => _ | Find _ => _ end] => destruct a eqn:?
    | context [match ?c with Translate _ _ => _ | Train _ => _ | InitUser _ => _ | Clear => _ | Print => _ | Release _ => _ | IsNew _ => _ end] => destruct c eqn:?
    end; try discriminate H; killfind;
  unfold acquire, release, finish, set_lk, set_cnt, goto in H;
  try (match type of H with context [match lk C ?l with _ => _ end] => destruct (lk C l) eqn:EL; try discriminate H end);
  try (match type of H with context [Nat.eq_dec (cnt C) 0] => destruct (Nat.eq_dec (cnt C) 0) end);
  injection H as <-; try rewrite Ft; simpl thr.
  all: try (eexists; right; split; [|reflexivity]; simpl; lia).
  - eexists; left; split; [|reflexivity]; simpl; lia.
  - eexists; right. rewrite (proj1 (free_slot_fields C u)). split; [|reflexivity]. simpl; lia.
Qed.
Lemma act_decreases C t C' L : inv C -> NoDup L -> (forall x, thr C x <> Idle -> In x L) -> act t C = Some C' ->
  sumw (thr C') L < sumw (thr C) L /\ (forall x, thr C' x <> Idle -> In x L).
Proof.
  intros I N HL H. assert (Ht : In t L) by (apply HL; intros E; unfold act in H; rewrite E in H; discriminate).
  split.
  - destruct (act_thr _ _ _ H) as (s & [[W E]|[W E]]); rewrite E.
    + pose proof (sumw_upd (wake (thr C)) t s L N Ht). pose proof (wake_sum C L I N).
      assert (wt (wake (thr C) t) >= wt (thr C t)) by (unfold wake; destruct (thr C t); simpl; lia). lia.
    + pose proof (sumw_upd (thr C) t s L N Ht). lia.
  - intros x Hx. destruct (Nat.eq_dec x t) as [->|Hn]; auto. apply HL.
    assert (Hn' : next Act t C = Some C') by exact H. destruct (next_others _ _ _ _ Hn' x Hn) as [<-|(c & Q & _)]; auto. congruence.
Qed.
Lemma run_bounded L : NoDup L -> forall s C C', inv C -> (forall x, thr C x <> Idle -> In x L) -> run s C = Some C' -> length s + sumw (thr C') L <= sumw (thr C) L.
Proof.
  intros N. induction s as [|t s IH]; simpl; intros C C' I HL H; [injection H as <-; lia|].
  destruct (act t C) as [C1|] eqn:E; [|discriminate]. destruct (act_decreases _ _ _ L I N HL E) as [D HL'].
  assert (I1 : inv C1) by (apply (inv_step Act t C C1 I E)). specialize (IH C1 C' I1 HL' H). lia.
Qed.
Lemma schedules_finite C : reachable C -> exists n, forall s C', run s C = Some C' -> length s <= n.
Proof.
  intros R. apply reachable_inv in R. destruct (i_fin C R) as (L & N & HL). exists (sumw (thr C) L).
  intros s C' H. pose proof (run_bounded L N s C C' R HL H). lia.
Qed.
Lemma act_log t C C' : act t C = Some C' -> log C' = log C \/ exists c, log C' = log C ++ [(t, c, true)].
Proof.
  intros H0. assert (H : next Act t C = Some C') by exact H0. clear H0.
  unfold next, act in H; destruct (thr C t) eqn:E; try discriminate H;
  repeat match type of H with
    | context [match ?w with nil => _ | cons _ _ => _ end] => destruct w eqn:?
    | context [match ?a with Pre => _ | Find _ => _ end] => destruct a eqn:?
    | context [match ?c with Translate _ _ => _ | Train _ => _ | InitUser _ => _ | Clear => _ | Print => _ | Release _ => _ | IsNew _ => _ end] => destruct c eqn:?
    end; try discriminate H; killfind;
  unfold acquire, release, finish, set_lk, set_cnt, goto in H;
  try (match type of H with context [match lk C ?l with _ => _ end] => destruct (lk C l) eqn:EL; try discriminate H end);
  try (match type of H with context [Nat.eq_dec (cnt C) 0] => destruct (Nat.eq_dec (cnt C) 0) end);
  injection H as <-; simpl log; try rewrite Fg; eauto.
  left. apply (free_slot_fields C u).
Qed.
Lemma run_no_failure s : forall C C', run s C = Some C' -> no_failure C -> no_failure C'.
Proof.
  induction s as [|t s IH]; simpl; intros C C' H F; [injection H as <-; auto|].
  destruct (act t C) as [C1|] eqn:E; [|discriminate]. apply (IH C1 C' H). intros x c Hin.
  destruct (act_log _ _ _ E) as [Q|[c' Q]]; rewrite Q in Hin; [apply (F x c); auto|].
  apply in_app_or in Hin. destruct Hin as [Hin|[Hin|[]]]; [apply (F x c); auto|discriminate].
Qed.
Lemma all_complete C : reachable C -> no_failure C -> forall s C', run s C = Some C' -> (forall t, act t C' = None) -> forall t, thr C' t = Idle.
Proof.
  intros R F s C' H Hs t. assert (R' : inv C') by (apply (inv_steps C C' (run_steps _ _ _ H)); apply reachable_inv; auto).
  pose proof (run_no_failure s C C' H F) as F'. destruct (thr C' t) eqn:E; auto; exfalso.
  all: destruct (progress C' R' F' t) as (x & C2 & Q); [rewrite E; discriminate|rewrite Hs in Q; discriminate].
Qed.
Lemma completes C : reachable C -> no_failure C -> exists s C', run s C = Some C' /\ forall t, thr C' t = Idle.
Proof.
  intros R F. pose proof (reachable_inv C R) as I. destruct (i_fin C I) as (L & N & HL). clear R.
  remember (sumw (thr C) L) as n eqn:En. revert C F I HL En. induction n as [n IH] using lt_wf_ind; intros C F I HL En.
  destruct (list_eq_dec Nat.eq_dec (filter (fun t => match thr C t with Idle => false | _ => true end) L) []) as [Z|Z].
  - exists [], C. split; [reflexivity|]. intros t. destruct (thr C t) eqn:E; auto; exfalso.
    all: assert (In t (filter (fun t => match thr C t with Idle => false | _ => true end) L)) by (apply filter_In; rewrite E; split; auto; apply HL; rewrite E; discriminate).
    all: rewrite Z in H; destruct H.
  - destruct (filter _ L) as [|t l] eqn:Ef; [congruence|]. assert (In t (t :: l)) as Ht by (left; auto). rewrite <- Ef in Ht. apply filter_In in Ht. destruct Ht as [_ Ht].
    destruct (progress C I F t) as (x & C1 & Q); [intros E; rewrite E in Ht; discriminate|].
    destruct (act_decreases C x C1 L I N HL Q) as [D HL1].
    assert (F1 : no_failure C1) by (apply (run_no_failure [x] C C1); [simpl; rewrite Q; reflexivity|auto]).
    destruct (IH (sumw (thr C1) L)) with (C := C1) as (s & C' & Hs & Hi); auto; [lia|apply (inv_step Act x C C1 I Q)|].
    exists (x :: s), C'. simpl. rewrite Q. auto.
Qed.

(** after a failed initUserPars *)
Lemma leak_step e t C C' x : inv C -> leaked C x -> next e t C = Some C' -> log C' = log C \/ exists y c, log C' = log C ++ [(y, c, true)] /\ user_table_only c.
Proof.
  intros I K H. destruct (i_leak C I x K) as (A1 & A2 & A3 & A4 & A5).
  assert (NA : ~ In LA (held (thr C t))). { intros J. pose proof (i_held C I t LA J). assert (t = x) by congruence. subst; auto. }
  assert (NN : ~ In LN (held (thr C t))). { intros J. pose proof (i_held C I t LN J). assert (t = x) by congruence. subst; auto. }
  clear A3 A4. stepcases H; killfind; simpl in NA, NN; try tauto;
  unfold acquire, release, finish, set_lk, set_cnt, goto in H;
  try (match type of H with context [match lk C ?l with _ => _ end] => destruct (lk C l) eqn:EL; try discriminate H end);
  try (match type of H with context [Nat.eq_dec (cnt C) 0] => destruct (Nat.eq_dec (cnt C) 0) end);
  injection H as <-; simpl; try rewrite Fg; auto.
  all: try (right; eexists; eexists; split; [reflexivity|exact Logic.I]).
  left. apply (free_slot_fields C u).
Qed.
Lemma leak_forever C C' : steps C C' -> inv C -> forall x, leaked C x -> exists l, log C' = log C ++ l /\ forall y c b, In (y, c, b) l -> user_table_only c.
Proof.
  induction 1 as [C|C C1 C2 e t H Hs IH]; intros I x K.
  - exists []. rewrite app_nil_r. split; auto. intros ? ? ? [].
  - assert (K1 : leaked C1 x) by (apply (leaked_iff C C1 t x (next_effect _ _ _ _ H)); auto).
    destruct (IH (inv_step _ _ _ _ I H) x K1) as (l & El & Hl).
    destruct (leak_step _ _ _ _ x I K H) as [Q|(y & c & Q & U)]; rewrite El, Q.
    + exists l. auto.
    + exists ((y, c, true) :: l). rewrite <- app_assoc. split; auto. intros y' c' b [J|J]; [injection J as <- <- <-; auto|eauto].
Qed.
Lemma stuck_forever C : reachable C -> forall t w, In (t, InitUser w, false) (log C) -> forall C', steps C C' ->
  exists l, log C' = log C ++ l /\ forall y c b, In (y, c, b) l -> user_table_only c.
Proof. intros R t w H C' Hs. apply (leak_forever C C' Hs (reachable_inv C R) t). exists (InitUser w); auto. Qed.

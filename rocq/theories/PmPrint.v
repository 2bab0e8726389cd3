(** Printing the phrase table and loading it again. *)
From Coq Require Import Ascii String Arith ZArith NArith List Bool Lia Permutation.
From Verif Require Import TextSpec TextModel TextProofs AMap VocabSpec VocabModel VocabProofs CodecModel CodecProofs PtSpec PtModel PtProofs PtEntries PmSpec PmModel PmProofs PmText.
Import ListNotations.
Open Scope Z_scope.

(** ** counts of training histories *)
Lemma prod_eq_dec_sp : forall a b : sphrase * sphrase, {a = b} + {a <> b}.
Proof. decide equality; apply sphrase_dec. Qed.
Definition triple (o : sop) : sphrase * sphrase * Z := match o with SIncr s t c => (s, t, c) | SAdd s t _ c => (s, t, c) end.
Lemma trained_incrs : forall h, trained h -> h = incrs_of (map triple h) /\ Forall (fun x => 0 < snd x) (map triple h).
Proof.
  intros h F. induction F as [|o h T0 F [IH1 IH2]]; [split; [reflexivity|constructor]|]. destruct o as [s t c|]; [|destruct T0]. cbn [map triple incrs_of fst snd]. split; [f_equal; exact IH1|constructor; auto].
Qed.
Lemma sumof_ext : forall A (f g : A -> Z) l, (forall x, In x l -> f x = g x) -> sumof f l = sumof g l.
Proof. intros A f g l H. unfold sumof. f_equal. apply map_ext_in. exact H. Qed.
Lemma sumof_nonneg : forall A (f : A -> Z) l, (forall x, In x l -> 0 <= f x) -> 0 <= sumof f l.
Proof. intros A f l. unfold sumof. induction l as [|x l IH]; cbn; intros H; [lia|]. specialize (IH (fun y Hy => H y (or_intror Hy))). specialize (H x (or_introl eq_refl)). lia. Qed.
Lemma sumof_pos : forall A (f : A -> Z) l x, (forall y, In y l -> 0 <= f y) -> In x l -> 0 < f x -> 0 < sumof f l.
Proof.
  intros A f l x. unfold sumof. induction l as [|y l IH]; cbn; intros H I P; [destruct I|]. pose proof (sumof_nonneg A f l (fun z Hz => H z (or_intror Hz))) as N. unfold sumof in N. pose proof (H y (or_introl eq_refl)).
  destruct I as [->|I]; [lia|]. specialize (IH (fun z Hz => H z (or_intror Hz)) I P). lia.
Qed.
Lemma sumof_add : forall A (f g : A -> Z) l, sumof (fun x => f x + g x) l = sumof f l + sumof g l.
Proof. intros A f g l. unfold sumof. induction l as [|x l IH]; cbn; [reflexivity|]. rewrite IH. lia. Qed.
Lemma sumof_zero : forall A (l : list A), sumof (fun _ => 0) l = 0.
Proof. intros A l. unfold sumof. induction l as [|x l IH]; cbn; [reflexivity|exact IH]. Qed.
Lemma sumof_pick : forall (x : sphrase) c S, NoDup S -> sumof (fun y => if sphrase_dec y x then c else 0) S = if in_dec sphrase_dec x S then c else 0.
Proof.
  intros x c S ND. induction ND as [|y S N ND IH]; [reflexivity|]. change (sumof (fun z => if sphrase_dec z x then c else 0) (y :: S)) with ((if sphrase_dec y x then c else 0) + sumof (fun z => if sphrase_dec z x then c else 0) S).
  rewrite IH. destruct (sphrase_dec y x) as [->|E].
  - destruct (in_dec sphrase_dec x S); [contradiction|]. destruct (in_dec sphrase_dec x (x :: S)) as [_|Q]; [lia|]. exfalso. apply Q. now left.
  - destruct (in_dec sphrase_dec x S) as [I|I]; destruct (in_dec sphrase_dec x (y :: S)) as [J|J]; try lia.
    + exfalso. apply J. now right.
    + destruct J as [J|J]; congruence.
Qed.
Section Hist.
Variable h : list sop.
Hypothesis TR : trained h.
Notation K := (scounts_after h).
Lemma k_sums : (forall s, k_s K s = sumof (fun x => if sphrase_dec s (fst (fst x)) then snd x else 0) (map triple h)) /\
  (forall t, k_t K t = sumof (fun x => if sphrase_dec t (snd (fst x)) then snd x else 0) (map triple h)) /\
  (forall s t, k_st K s t = sumof (fun x => if sphrase_dec s (fst (fst x)) then if sphrase_dec t (snd (fst x)) then snd x else 0 else 0) (map triple h)).
Proof.
  destruct (trained_incrs h TR) as [E _]. destruct (incr_sums (map triple h) scounts0) as (A & B & C). rewrite <- E in A, B, C. cbv zeta in *. cbn [k_s k_t k_st scounts0] in *.
  unfold scounts_after. split; [|split]; intros; [rewrite A|rewrite B|rewrite C]; lia.
Qed.
Lemma tri_pos : forall x, In x (map triple h) -> 0 < snd x.
Proof. destruct (trained_incrs h TR) as [_ F]. now rewrite Forall_forall in F. Qed.
Lemma tri_of : forall o, In o h -> exists c, triple o = (sop_s o, sop_t o, c).
Proof. intros [s t c|s t a c] _; cbn; eauto. Qed.
Lemma k_seen : forall o, In o h -> 0 < k_s K (sop_s o) /\ 0 < k_t K (sop_t o) /\ 0 < k_st K (sop_s o) (sop_t o).
Proof.
  intros o Ho. destruct k_sums as (A & B & C). rewrite A, B, C. destruct (tri_of o Ho) as [c E]. assert (I : In (sop_s o, sop_t o, c) (map triple h)) by (rewrite <- E; now apply in_map). pose proof (tri_pos _ I) as P. cbn [snd] in P.
  split; [|split]; (eapply sumof_pos; [|exact I|]); cbn [fst snd]; try (intros y Hy; pose proof (tri_pos y Hy); repeat destruct (sphrase_dec _ _); lia); repeat destruct (sphrase_dec _ _); congruence || lia.
Qed.
Lemma k_seen_inv : forall s t, k_st K s t <> 0 -> exists o, In o h /\ sop_s o = s /\ sop_t o = t.
Proof.
  intros s t N. destruct k_sums as (_ & _ & C). rewrite C in N.
  destruct (in_dec prod_eq_dec_sp (s, t) (map (fun o => (sop_s o, sop_t o)) h)) as [I|I].
  - apply in_map_iff in I. destruct I as [o [E Ho]]. injection E as E1 E2. eauto.
  - exfalso. apply N. transitivity (sumof (fun _ : sphrase * sphrase * Z => 0) (map triple h)); [|apply sumof_zero]. apply sumof_ext. intros x Hx. apply in_map_iff in Hx. destruct Hx as [o [<- Ho]]. destruct (tri_of o Ho) as [c ->]. cbn [fst snd].
    destruct (sphrase_dec s (sop_s o)) as [E1|]; [|reflexivity]. destruct (sphrase_dec t (sop_t o)) as [E2|]; [|reflexivity]. exfalso. apply I. apply in_map_iff. exists o. split; [congruence|exact Ho].
Qed.
Lemma marg_t : forall t S, NoDup S -> (forall o, In o h -> sop_t o = t -> In (sop_s o) S) -> k_t K t = sumof (fun s => k_st K s t) S.
Proof.
  intros t S ND IS. destruct k_sums as (_ & B & C). rewrite B. rewrite (sumof_ext _ (fun s => k_st K s t) (fun s => sumof (fun x => if sphrase_dec s (fst (fst x)) then if sphrase_dec t (snd (fst x)) then snd x else 0 else 0) (map triple h)) S) by (intros; apply C).
  assert (I2 : forall x, In x (map triple h) -> snd (fst x) = t -> In (fst (fst x)) S).
  { intros x Hx E. apply in_map_iff in Hx. destruct Hx as [o [<- Ho]]. destruct (tri_of o Ho) as [c Eo]. rewrite Eo in *. cbn [fst snd] in *. auto. }
  clear B C. revert I2. generalize (map triple h). intros l. induction l as [|x l IH]; intros I2.
  - symmetry. apply sumof_zero.
  - assert (X : sumof (fun s => sumof (fun x0 => if sphrase_dec s (fst (fst x0)) then if sphrase_dec t (snd (fst x0)) then snd x0 else 0 else 0) (x :: l)) S =
       sumof (fun s => if sphrase_dec s (fst (fst x)) then if sphrase_dec t (snd (fst x)) then snd x else 0 else 0) S + sumof (fun s => sumof (fun x0 => if sphrase_dec s (fst (fst x0)) then if sphrase_dec t (snd (fst x0)) then snd x0 else 0 else 0) l) S).
    { rewrite <- sumof_add. apply sumof_ext. reflexivity. }
    rewrite X, <- IH by (intros; apply I2; auto; now right). change (sumof (fun x0 => if sphrase_dec t (snd (fst x0)) then snd x0 else 0) (x :: l)) with ((if sphrase_dec t (snd (fst x)) then snd x else 0) + sumof (fun x0 => if sphrase_dec t (snd (fst x0)) then snd x0 else 0) l).
    f_equal. rewrite sumof_pick by exact ND. destruct (sphrase_dec t (snd (fst x))) as [E|E]; [|destruct (in_dec _ _ _); reflexivity]. destruct (in_dec sphrase_dec (fst (fst x)) S) as [J|J]; [reflexivity|]. exfalso. apply J, I2; [now left|congruence].
Qed.
Lemma marg_s : forall s S, NoDup S -> (forall o, In o h -> sop_s o = s -> In (sop_t o) S) -> k_s K s = sumof (fun t => k_st K s t) S.
Proof.
  intros s S ND IS. destruct k_sums as (B & _ & C). rewrite B. rewrite (sumof_ext _ (fun t => k_st K s t) (fun t => sumof (fun x => if sphrase_dec t (snd (fst x)) then if sphrase_dec s (fst (fst x)) then snd x else 0 else 0) (map triple h)) S).
  2:{ intros t _. rewrite C. apply sumof_ext. intros x _. repeat destruct (sphrase_dec _ _); reflexivity. }
  assert (I2 : forall x, In x (map triple h) -> fst (fst x) = s -> In (snd (fst x)) S).
  { intros x Hx E. apply in_map_iff in Hx. destruct Hx as [o [<- Ho]]. destruct (tri_of o Ho) as [c Eo]. rewrite Eo in *. cbn [fst snd] in *. auto. }
  clear B C. revert I2. generalize (map triple h). intros l. induction l as [|x l IH]; intros I2.
  - symmetry. apply sumof_zero.
  - assert (X : sumof (fun t => sumof (fun x0 => if sphrase_dec t (snd (fst x0)) then if sphrase_dec s (fst (fst x0)) then snd x0 else 0 else 0) (x :: l)) S =
       sumof (fun t => if sphrase_dec t (snd (fst x)) then if sphrase_dec s (fst (fst x)) then snd x else 0 else 0) S + sumof (fun t => sumof (fun x0 => if sphrase_dec t (snd (fst x0)) then if sphrase_dec s (fst (fst x0)) then snd x0 else 0 else 0) l) S).
    { rewrite <- sumof_add. apply sumof_ext. reflexivity. }
    rewrite X, <- IH by (intros; apply I2; auto; now right). change (sumof (fun x0 => if sphrase_dec s (fst (fst x0)) then snd x0 else 0) (x :: l)) with ((if sphrase_dec s (fst (fst x)) then snd x else 0) + sumof (fun x0 => if sphrase_dec s (fst (fst x0)) then snd x0 else 0) l).
    f_equal. rewrite sumof_pick by exact ND. destruct (sphrase_dec s (fst (fst x))) as [E|E]; [|destruct (in_dec _ _ _); reflexivity]. destruct (in_dec sphrase_dec (snd (fst x)) S) as [J|J]; [reflexivity|]. exfalso. apply J, I2; [now left|congruence].
Qed.
End Hist.
(** ** what is printed *)
Lemma isTarget_rec : forall v, rec_vec v -> (isTargetPhrase v = true <-> good_trg v).
Proof.
  intros v Hv. unfold isTargetPhrase. rewrite forallb_forall. split.
  - intros H. destruct Hv as [(s & G & ->)|[G|(s & t & G & G2 & ->)]]; [|exact G|]; exfalso.
    + specialize (H UNUSED_WORD (or_introl eq_refl)). rewrite N.eqb_refl in H. discriminate.
    + specialize (H UNUSED_WORD). unfold getTrgSrc in H. rewrite N.eqb_refl in H. cbn in H. assert (X : false = true); [apply H; apply in_or_app; right; now left|discriminate].
  - intros [G _] x Hx. unfold good_src in G. rewrite Forall_forall in G. apply negb_true_iff, N.eqb_neq. apply G, Hx.
Qed.
Lemma key_dec : forall v, rec_vec v -> pt_keyToVector (pt_vectorToKey v) = Some v.
Proof. intros v H. apply pt_roundtrip, rec_below, H. Qed.
Lemma hat_next_spec : forall es, keys_ok (map fst es) -> awf es -> exists ts, hat_next es = Some ts /\ NoDup ts /\
  forall t, In t ts <-> good_trg t /\ exists z, In (trg_key t, z) es /\ z <> 0.
Proof.
  induction es as [|[k z] es IH]; intros KO W; [exists []; split; [reflexivity|split; [constructor|]]; intros t; split; [intros []|intros (_ & z & [] & _)]|].
  destruct (KO k (or_introl eq_refl)) as (v & -> & RV). unfold awf in W. cbn [map fst] in W. apply NoDup_cons_iff in W. destruct W as [Nk W].
  destruct IH as (ts & E & ND & S1); [intros k' Hk'; apply KO; now right|exact W|]. cbn [hat_next]. rewrite key_dec, E by exact RV. pose proof (isTarget_rec v RV) as IT.
  assert (OLD : forall t, good_trg t -> (exists z', In (trg_key t, z') es /\ z' <> 0) -> t <> v) by (intros t G (z' & I & _) ->; apply Nk; apply in_map_iff; exists (trg_key v, z'); auto).
  destruct (isTargetPhrase v) eqn:Q; cbn [negb orb].
  - destruct (Z.eqb_spec z 0) as [Ez|Ez].
    + exists ts. split; [reflexivity|]. split; [exact ND|]. intros t. rewrite S1. split; intros (G & z' & I & N); (split; [exact G|]); exists z'; (split; [|exact N]); [now right|]. destruct I as [I|I]; [|exact I]. injection I as _ E2. congruence.
    + exists (v :: ts). split; [reflexivity|]. split; [constructor; [|exact ND]; intros I; apply S1 in I; destruct I as [G I]; now apply (OLD v G I)|]. intros t. cbn [In]. rewrite S1. split.
      * intros [<-|(G & z' & I & N)]; [split; [now apply IT|]; exists z; split; [now left|exact Ez]|split; [exact G|]; exists z'; split; [now right|exact N]].
      * intros (G & z' & [I|I] & N); [left|right; eauto]. injection I as E1 _. apply (f_equal pt_keyToVector) in E1. rewrite key_dec in E1 by exact RV. unfold trg_key in E1. rewrite (key_dec t) in E1 by (right; left; exact G). congruence.
  - exists ts. split; [reflexivity|]. split; [exact ND|]. intros t. rewrite S1. split; intros (G & z' & I & N); (split; [exact G|]); exists z'; (split; [|exact N]); [now right|]. destruct I as [I|I]; [|exact I].
    injection I as E1 _. apply (f_equal pt_keyToVector) in E1. rewrite key_dec in E1 by exact RV. unfold trg_key in E1. rewrite (key_dec t) in E1 by (right; left; exact G). injection E1 as <-. apply IT in G. congruence.
Qed.
Lemma hat_targets_spec : forall es, keys_ok (map fst es) -> awf es -> (forall t z, good_trg t -> In (trg_key t, z) es -> z <> 0) ->
  (exists t z, good_trg t /\ In (trg_key t, z) es) -> exists ts, hat_targets es = Some ts /\ NoDup ts /\ forall t, In t ts <-> good_trg t /\ exists z, In (trg_key t, z) es.
Proof.
  unfold hat_targets. induction es as [|[k z] es IH]; intros KO W NZ (t0 & z0 & G0 & I0); [destruct I0|].
  destruct (KO k (or_introl eq_refl)) as (v & -> & RV). pose proof W as W'. unfold awf in W'. cbn [map fst] in W'. apply NoDup_cons_iff in W'. destruct W' as [Nk W'].
  cbn [hat_begin]. rewrite key_dec by exact RV. pose proof (isTarget_rec v RV) as IT.
  assert (KO' : keys_ok (map fst es)) by (intros k' Hk'; apply KO; now right).
  assert (HD : forall t z', good_trg t -> In (trg_key t, z') ((pt_vectorToKey v, z) :: es) -> t = v \/ In (trg_key t, z') es).
  { intros t z' G [I|I]; [left|now right]. injection I as E1 _. apply (f_equal pt_keyToVector) in E1. rewrite key_dec in E1 by exact RV. unfold trg_key in E1. rewrite (key_dec t) in E1 by (right; left; exact G). congruence. }
  destruct (isTargetPhrase v) eqn:Q.
  - destruct (hat_next_spec es KO' W') as (ts & E & ND & S1). rewrite E. exists (v :: ts). split; [reflexivity|].
    split; [constructor; [|exact ND]; intros I; apply S1 in I; destruct I as (G & z' & I & _); apply Nk; apply in_map_iff; exists (trg_key v, z'); auto|].
    intros t. cbn [In]. rewrite S1. split.
    + intros [<-|(G & z' & I & _)]; [split; [now apply IT|]; exists z; now left|split; [exact G|]; exists z'; now right].
    + intros (G & z' & I). destruct (HD t z' G I) as [->|I']; [now left|right; split; [exact G|]]. exists z'. split; [exact I'|]. apply (NZ t z' G). now right.
  - destruct IH as (ts & E & ND & S1); [exact KO'|exact W'|intros t z' G I; apply (NZ t z' G); now right| |].
    + exists t0, z0. split; [exact G0|]. destruct (HD t0 z0 G0 I0) as [->|I]; [apply IT in G0; congruence|exact I].
    + exists ts. split; [exact E|]. split; [exact ND|]. intros t. rewrite S1. split; intros (G & z' & I); (split; [exact G|]); exists z'; [now right|]. destruct (HD t z' G I) as [->|I']; [apply IT in G; congruence|exact I'].
Qed.
Lemma toWords_enc : forall v names s, holds v names -> incl s names -> toWords (enc names s) v = s.
Proof.
  intros v names s H I. pose proof H as (ND & _ & _ & HI & _). unfold toWords, enc. rewrite map_map. rewrite <- (map_id s) at 2. apply map_ext_in. intros w Hw. destruct (position_in w names (I w Hw)) as [i E].
  unfold idx. rewrite E, Nnat.Nat2N.id. apply position_some in E; [|exact ND]. unfold wordIndexToString. rewrite HI, E. reflexivity.
Qed.
Lemma contents_seen : forall sn tn h c x y, c_st (fold_left op_effect (map (enc_op sn tn) h) c) x y <> None -> c_st c x y <> None \/ exists o, In o h /\ x = enc sn (sop_s o) /\ y = enc tn (sop_t o).
Proof.
  intros sn tn h. induction h as [|o h IH]; intros c x y N; [now left|]. cbn [map fold_left] in N. apply IH in N. destruct N as [N|(o' & Ho & E)]; [|right; exists o'; split; [now right|exact E]].
  destruct o as [s t n|s t a n]; cbn [enc_op op_effect c_st] in N; unfold upd2 in N; (destruct (phrase_dec x (enc sn s)) as [->|]; [destruct (phrase_dec y (enc tn t)) as [->|]|]; [right; eexists; split; [now left|split; reflexivity]|now left|now left]).
Qed.
Section Print.
Variable h : list sop.
Hypothesis TR : trained h.
Hypothesis US : Forall usable_op h.
Hypothesis FI : fits_index h.
Notation K := (scounts_after h).
Notation m := (pm_run h pm_clear).
Notation ih := (map (enc_op (SN h) (TN h)) h).
(** the line of a pair of phrases *)
Definition pair_line (s t : sphrase) : tline := mkline s t (k_s K s) (k_st K s t).
Theorem print_lines : h <> [] -> forall es, Permutation es (p_tab m) -> exists lines, printTTable m es = Some lines /\
  NoDup (map (fun l => (l_s l, l_t l)) lines) /\ forall l, In l lines <-> exists o, In o h /\ l = pair_line (sop_s o) (sop_t o).
Proof.
  intros NEh es PE. destruct (pm_state h US FI) as (H1 & H2 & H3 & G & R1 & R2 & R3). pose proof (HR_run _ G) as HRr. destruct HRr as [KW K1 K2 K3]. rewrite <- H3 in KW, K2, K3.
  pose proof (hat_keys_run _ G) as KO. rewrite <- H3 in KO.
  assert (KOe : keys_ok (map fst es)). { intros k Hk. apply KO. eapply Permutation_in; [apply Permutation_map, PE|exact Hk]. }
  assert (We : awf es). { unfold awf in *. eapply Permutation_NoDup; [apply Permutation_map, Permutation_sym, PE|exact KW]. }
  assert (GET : forall t z, In (trg_key t, z) es <-> aget bytes_dec (trg_key t) (p_tab m) = Some z).
  { intros t z. split; intros I; [apply aget_in; [exact KW|]; eapply Permutation_in; [exact PE|exact I]|]. apply aget_some_in in I. eapply Permutation_in; [apply Permutation_sym, PE|exact I]. }
  assert (GO : forall o, In o h -> good_src (enc (SN h) (sop_s o)) /\ good_trg (enc (TN h) (sop_t o))).
  { intros o Ho. rewrite Forall_forall in US. destruct (US o Ho) as (U1 & U2 & U3). destruct FI as [B1 B2]. split; [apply enc_good; auto; now apply names_incl_s|]. split; [apply enc_good; auto; now apply names_incl_t|]. destruct (sop_t o); [contradiction|discriminate]. }
  assert (TV : forall o, In o h -> val (aget bytes_dec (trg_key (enc (TN h) (sop_t o))) (p_tab m)) = k_t K (sop_t o)).
  { intros o Ho. rewrite K2 by apply (GO o Ho). apply R2, names_incl_t, Ho. }
  (* every stored target comes from the history *)
  assert (SEEN : forall t z, good_trg t -> aget bytes_dec (trg_key t) (p_tab m) = Some z -> exists o, In o h /\ t = enc (TN h) (sop_t o)).
  { rewrite H3. intros t z Gt. unfold hat_run. clear - G Gt. 
    assert (X : forall l acc, Forall good_op (map (enc_op (SN h) (TN h)) l) -> aget bytes_dec (trg_key t) (fold_left hat_step (map (enc_op (SN h) (TN h)) l) acc) <> None ->
       aget bytes_dec (trg_key t) acc <> None \/ exists o, In o l /\ t = enc (TN h) (sop_t o)).
    { induction l as [|o l IH]; intros acc GF N; [now left|]. cbn [map fold_left] in N. inversion GF as [|? ? Go GF']; subst. apply IH in N; [|exact GF']. destruct N as [N|(o' & Ho & E)]; [|right; exists o'; split; [now right|exact E]].
      destruct o as [s0 t0 c0|s0 t0 a0 c0]; cbn [enc_op hat_step good_op] in *; destruct Go as [Gs Gt0]; unfold hat_incrCountsOfEntry, hat_addTableEntry, hat_addSrcTrgInfo, hat_addTrgInfo, hat_addSrcInfo in N;
        rewrite !hat_get_put in N by exact I;
        (destruct (list_eq_dec N.eq_dec (trg_key t) (trgsrc_key (enc (SN h) s0) (enc (TN h) t0))) as [E|_]; [symmetry in E; exfalso; revert E; apply nk_t_st; auto|]);
        (destruct (list_eq_dec N.eq_dec (trg_key t) (trg_key (enc (TN h) t0))) as [E|_]; [right; eexists; split; [now left|]; exact (proj1 (nk_trg _ _ Gt0 Gt) E)|]);
        (destruct (list_eq_dec N.eq_dec (trg_key t) (src_key (enc (SN h) s0))) as [E|_]; [symmetry in E; exfalso; revert E; apply nk_s_t; auto|]); now left. }
    intros E. destruct (X h [] G) as [Q|Q]; [rewrite E; discriminate|now destruct Q|exact Q]. }
  destruct (hat_targets_spec es KOe We) as (ts & ET & NDt & INt).
  { intros t z Gt I. apply GET in I. destruct (SEEN t z Gt I) as (o & Ho & ->). pose proof (TV o Ho) as V. rewrite I in V. cbn [val] in V. pose proof (k_seen h TR o Ho) as (_ & P & _). lia. }
  { destruct h as [|o h'] eqn:Eh; [contradiction|]. rewrite <- Eh in *. assert (Ho : In o h) by (rewrite Eh; now left). pose proof (TV o Ho) as V. pose proof (k_seen h TR o Ho) as (_ & P & _).
    destruct (aget bytes_dec (trg_key (enc (TN h) (sop_t o))) (p_tab m)) as [z|] eqn:Q; [|cbn in V; lia]. exists (enc (TN h) (sop_t o)), z. split; [apply GO, Ho|now apply GET]. }
  unfold printTTable. rewrite ET.
  assert (INt2 : forall t, In t ts -> exists o, In o h /\ t = enc (TN h) (sop_t o)) by (intros t Ht; apply INt in Ht; destruct Ht as (Gt & z & I); apply GET in I; eapply SEEN; eauto).
  assert (INt3 : forall o, In o h -> In (enc (TN h) (sop_t o)) ts).
  { intros o Ho. apply INt. split; [apply GO, Ho|]. pose proof (TV o Ho) as V. pose proof (k_seen h TR o Ho) as (_ & P & _). destruct (aget bytes_dec (trg_key (enc (TN h) (sop_t o))) (p_tab m)) as [z|] eqn:Q; [|cbn in V; lia]. exists z. now apply GET. }
  assert (MAIN : forall l, NoDup l -> (forall t, In t l -> exists o, In o h /\ t = enc (TN h) (sop_t o)) -> exists lines, print_targets m l = Some lines /\
     NoDup (map (fun x => (l_s x, l_t x)) lines) /\ forall x, In x lines <-> exists o, In o h /\ In (enc (TN h) (sop_t o)) l /\ x = pair_line (sop_s o) (sop_t o)).
  { induction l as [|t l IH]; intros ND HT; [exists []; split; [reflexivity|split; [constructor|]]; intros x; split; [intros []|intros (o & _ & [] & _)]|].
    apply NoDup_cons_iff in ND. destruct ND as [Nt ND]. destruct IH as (lines & E & NDl & INl); [exact ND|intros; apply HT; now right|].
    destruct (HT t (or_introl eq_refl)) as (ot & Hot & Et). destruct (hat_entries_trg ih t G) as (b & res & Er & INr & NDr & _); [rewrite Et; apply GO, Hot|].
    cbn [print_targets]. rewrite <- H3 in Er. rewrite Er, E. eexists. split; [reflexivity|].
    assert (DEC : forall e, In e res -> exists o, In o h /\ t = enc (TN h) (sop_t o) /\ fst e = enc (SN h) (sop_s o) /\ fst (snd e) = k_s K (sop_s o) /\ snd (snd e) = k_st K (sop_s o) (sop_t o)).
    { intros e He. apply INr in He. destruct He as (Ge & E1 & E2 & N1 & N2). destruct (contents_seen (SN h) (TN h) h no_contents (fst e) t) as [Q|(o & Ho & Ea & Eb)].
      - fold (contents_after ih). rewrite E2. discriminate.
      - cbn in Q. congruence.
      - exists o. split; [exact Ho|]. split; [exact Eb|]. split; [exact Ea|]. rewrite Ea in E1, E2. rewrite Eb in E2. split.
        + rewrite <- R1 by (now apply names_incl_s). rewrite E1. reflexivity.
        + rewrite <- R3 by (first [now apply names_incl_s|now apply names_incl_t]). rewrite E2. reflexivity. }
    assert (LN : forall e o, In o h -> t = enc (TN h) (sop_t o) -> fst e = enc (SN h) (sop_s o) -> fst (snd e) = k_s K (sop_s o) -> snd (snd e) = k_st K (sop_s o) (sop_t o) ->
        mkline (toWords (fst e) (p_sv m)) (toWords t (p_tv m)) (fst (snd e)) (snd (snd e)) = pair_line (sop_s o) (sop_t o)).
    { intros e o Ho E1 E2 E3 E4. rewrite E1, E2, E3, E4. rewrite (toWords_enc _ _ _ H1) by (now apply names_incl_s). rewrite (toWords_enc _ _ _ H2) by (now apply names_incl_t). reflexivity. }
    split.
    - rewrite map_app, map_map. cbn [l_s l_t].
      assert (A : NoDup (map (fun e : phrase * (Z * Z) => (toWords (fst e) (p_sv m), toWords t (p_tv m))) res)).
      { clear - NDr DEC H1 LN. revert DEC. induction res as [|e res IHr]; intros DEC; [constructor|]. cbn [map] in *. apply NoDup_cons_iff in NDr. destruct NDr as [Ne NDr].
        constructor; [|apply IHr; [exact NDr|intros; apply DEC; now right]]. intros Q. apply in_map_iff in Q. destruct Q as [e' [Q He']]. injection Q as Q. apply Ne. apply in_map_iff. exists e'. split; [|exact He'].
        destruct (DEC e (or_introl eq_refl)) as (o1 & Ho1 & _ & F1 & _). destruct (DEC e' (or_intror He')) as (o2 & Ho2 & _ & F2 & _). rewrite F1, F2 in Q. rewrite !(toWords_enc _ _ _ H1) in Q by (now apply names_incl_s). congruence. }
      assert (DJ : forall q, In q (map (fun e : phrase * (Z * Z) => (toWords (fst e) (p_sv m), toWords t (p_tv m))) res) -> ~ In q (map (fun x => (l_s x, l_t x)) lines)).
      { intros q Q1 Q2. apply in_map_iff in Q1. destruct Q1 as [e [<- He]]. apply in_map_iff in Q2. destruct Q2 as [x [Qx Hx]]. apply INl in Hx. destruct Hx as (o' & Ho' & Il & ->). injection Qx as _ Q2.
        cbn [pair_line l_t] in Q2. rewrite Et, (toWords_enc _ _ _ H2) in Q2 by (now apply names_incl_t). rewrite Q2, <- Et in Il. contradiction. }
      revert A DJ NDl. generalize (map (fun e : phrase * (Z * Z) => (toWords (fst e) (p_sv m), toWords t (p_tv m))) res) (map (fun x => (l_s x, l_t x)) lines). clear.
      intros a b A DJ B. induction A as [|x a Nx A IHa]; [exact B|]. cbn [app]. constructor; [|apply IHa; intros q Hq; apply DJ; now right]. rewrite in_app_iff. intros [Q|Q]; [contradiction|]. apply (DJ x); [now left|exact Q].
    - intros x. rewrite in_app_iff, INl, in_map_iff. split.
      + intros [(e & <- & He)|(o & Ho & Il & ->)]; [|exists o; split; [exact Ho|split; [now right|reflexivity]]]. destruct (DEC e He) as (o & Ho & E1 & E2 & E3 & E4). exists o. split; [exact Ho|]. split; [left; exact E1|]. now apply LN.
      + intros (o & Ho & [E1|Il] & ->); [left|right; eauto]. exists (enc (SN h) (sop_s o), (k_s K (sop_s o), k_st K (sop_s o) (sop_t o))). split; [now apply LN|].
        apply INr. cbn [fst snd]. split; [apply GO, Ho|]. pose proof (k_seen h TR o Ho) as (P1 & _ & P2). unfold entry_of. cbn [fst snd]. rewrite E1.
        pose proof (R1 (sop_s o) (names_incl_s h o Ho)) as V1. pose proof (R3 (sop_s o) (sop_t o) (names_incl_s h o Ho) (names_incl_t h o Ho)) as V2.
        destruct (c_src (contents_after ih) (enc (SN h) (sop_s o))) as [z1|]; [|cbn [val] in V1; lia]. destruct (c_st (contents_after ih) (enc (SN h) (sop_s o)) (enc (TN h) (sop_t o))) as [z2|]; [|cbn [val] in V2; lia].
        cbn [val] in V1, V2. rewrite V1, V2. split; [reflexivity|split; [reflexivity|split; lia]]. }
  destruct (MAIN ts NDt INt2) as (lines & E & NDl & INl). exists lines. split; [exact E|]. split; [exact NDl|]. intros l. rewrite INl. split; intros (o & Ho & X); exists o; (split; [exact Ho|]); [apply X|split; [now apply INt3|exact X]].
Qed.
End Print.

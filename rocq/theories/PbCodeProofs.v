(** Hypotheses and their states can be numbered, as C90 requires. *)
From Coq Require Import ZArith Arith List Bool Lia Cantor.
From Verif Require Import DecSpec DecModel DecGapProofs FeatModel PbModel.
Import ListNotations.
Open Scope nat_scope.
Fixpoint lcode (l : list nat) : nat := match l with [] => 0 | x :: r => S (Cantor.to_nat (x, lcode r)) end.
Fixpoint ldecf (k m : nat) : list nat := match k, m with S k, S m => let p := Cantor.of_nat m in fst p :: ldecf k (snd p) | _, _ => [] end.
Definition ldec (m : nat) : list nat := ldecf m m.
Lemma ldecf_lcode : forall l k, lcode l <= k -> ldecf k (lcode l) = l.
Proof.
  induction l as [|x l IH]; intros k L; [destruct k; reflexivity|]. cbn [lcode] in *. destruct k as [|k]; [lia|]. cbn [ldecf]. rewrite Cantor.cancel_of_to. cbn [fst snd]. rewrite IH; [reflexivity|]. pose proof (Cantor.to_nat_non_decreasing x (lcode l)). lia.
Qed.
Lemma ldec_lcode : forall l, ldec (lcode l) = l.
Proof. intro l. now apply ldecf_lcode. Qed.
Lemma lcode_inj : forall a b, lcode a = lcode b -> a = b.
Proof. intros a b E. rewrite <- (ldec_lcode a), <- (ldec_lcode b). now rewrite E. Qed.
Definition pbenc (h : pbhyp) : nat := lcode [lcode (ntarget (fst h)); lcode (map fst (segs (fst h))); lcode (map snd (segs (fst h))); lcode (cuts (fst h)); lcode (snd h)].
Definition pbdec (m : nat) : pbhyp :=
  match ldec m with
  | [a; b; c; d; e] => ({| ntarget := ldec a; segs := combine (ldec b) (ldec c); cuts := ldec d |}, ldec e)
  | _ => (hd_null, [])
  end.
Lemma combine_map : forall l : list (nat * nat), combine (map fst l) (map snd l) = l.
Proof. induction l as [|[x y] l IH]; [reflexivity|]. cbn. now rewrite IH. Qed.
Theorem pbdec_enc : forall h, pbdec (pbenc h) = h.
Proof. intros [[t s c] l]. unfold pbdec, pbenc. rewrite ldec_lcode. rewrite !ldec_lcode. cbn [fst snd ntarget segs cuts]. now rewrite combine_map. Qed.
(** states of hypotheses on sentences of [n] words *)
Definition pbst (n : nat) (h : pbhyp) : nat :=
  let x := pbstate h in lcode [lcode (hs_lmHist x); hs_trglen x; hs_endLast x; lcode (map (fun j => if hs_key x j then 1 else 0) (seq 1 n))].
Lemma pbst_spec : forall n a b, (forall j, hs_key (pbstate a) j = true -> 1 <= j <= n) -> (forall j, hs_key (pbstate b) j = true -> 1 <= j <= n) ->
  (pbst n a = pbst n b <-> hypstate_eq (pbstate a) (pbstate b)).
Proof.
  intros n a b Ka Kb. split.
  - unfold pbst. intro E. apply lcode_inj in E. injection E as E1 E2 E3 E4. apply lcode_inj in E1. apply lcode_inj in E4. split; [auto|]. split; [auto|]. split; [auto|]. intro j.
    destruct (in_dec Nat.eq_dec j (seq 1 n)) as [I|I].
    + assert (Q : forall l (f g : nat -> bool), map (fun j => if f j then 1 else 0) l = map (fun j => if g j then 1 else 0) l -> In j l -> f j = g j).
      { clear. induction l as [|x l IH]; intros f g E I; [destruct I|]. cbn in E. injection E as E1 E2. destruct I as [<-|I]; [destruct (f x), (g x); congruence|eauto]. }
      eapply Q; eauto.
    + destruct (hs_key (pbstate a) j) eqn:X, (hs_key (pbstate b) j) eqn:Y; auto; exfalso; apply I, in_seq; [specialize (Ka j X)|specialize (Kb j Y)]; lia.
  - intros (E1 & E2 & E3 & E4). unfold pbst. rewrite E1, E2, E3. erewrite (map_ext (fun j => if hs_key (pbstate a) j then 1 else 0)); [reflexivity|]. intro j. cbn beta. now rewrite E4.
Qed.

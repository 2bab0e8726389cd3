(** Proofs about tables of translation options. *)
From Coq Require Import ZArith Arith List Bool Lia Sorted Permutation.
From Verif Require Import HeurModel.
Import ListNotations.
Open Scope nat_scope.
Section N.
Variable D : Type.
Definition desc (t : list (Z * D)) : Prop := StronglySorted (fun p q => (fst q <= fst p)%Z) t.
Lemma ins_perm : forall s (v : D) t, Permutation (nb_insert s v t) ((s, v) :: t).
Proof. intros s v. induction t as [|p t IH]; cbn [nb_insert]; [auto|]. destruct (fst p <? s)%Z; [auto|]. rewrite IH. apply perm_swap. Qed.
Lemma ins_desc : forall s (v : D) t, desc t -> desc (nb_insert s v t).
Proof.
  intros s v. induction t as [|p t IH]; intro S; cbn [nb_insert]; [repeat constructor|]. inversion S; subst. destruct (Z.ltb_spec (fst p) s).
  - constructor; [auto|]. constructor; [cbn; lia|]. rewrite Forall_forall in *. intros q Q. specialize (H2 q Q). cbn. lia.
  - constructor; [apply IH; auto|]. eapply Permutation_Forall; [symmetry; apply ins_perm|]. constructor; [cbn; lia|auto].
Qed.
Lemma ins_ties : forall s (v : D) t k, desc t -> filter (fun p => (fst p =? k)%Z) (nb_insert s v t) = filter (fun p => (fst p =? k)%Z) t ++ (if (s =? k)%Z then [(s, v)] else []).
Proof.
  intros s v. induction t as [|p t IH]; intros k S; cbn [nb_insert filter fst app]; [reflexivity|]. inversion S; subst. destruct (Z.ltb_spec (fst p) s).
  - cbn [filter fst]. destruct (Z.eqb_spec s k) as [->|N].
    + assert (E : filter (fun q : Z * D => (fst q =? k)%Z) (p :: t) = []).
      { assert (X : forall q, In q (p :: t) -> (fst q <? k)%Z = true) by (intros q [<-|Q]; [apply Z.ltb_lt; auto|rewrite Forall_forall in H2; specialize (H2 q Q); apply Z.ltb_lt; lia]).
        clear -X. induction (p :: t) as [|q l IH]; cbn [filter]; [reflexivity|]. pose proof (X q (or_introl eq_refl)) as E. apply Z.ltb_lt in E. destruct (Z.eqb_spec (fst q) k); [lia|]. apply IH. intros r R. apply X. now right. }
      cbn [filter] in E. rewrite E. reflexivity.
    + now rewrite app_nil_r.
  - cbn [filter]. rewrite IH by auto. destruct (fst p =? k)%Z; reflexivity.
Qed.
Lemma removelast_snoc : forall (t : list (Z * D)) p, removelast (t ++ [p]) = t.
Proof. intros. rewrite removelast_app by discriminate. cbn. apply app_nil_r. Qed.
Lemma remove_ok : forall (t : list (Z * D)) p, t <> [] -> removeLastElement (t ++ [p]) = Some t.
Proof.
  intros t p N. unfold removeLastElement. destruct (t ++ [p]) as [|x [|y q]] eqn:E; [destruct t; discriminate E|destruct t as [|? [|? ?]]; [congruence|discriminate E|discriminate E]|]. rewrite <- E. now rewrite removelast_snoc.
Qed.
Lemma shrink_ok : forall f N (t : list (Z * D)), 1 <= N -> length t <= f + N -> shrink f N t = Some (firstn N t).
Proof.
  induction f as [|f IH]; intros N t N1 L; cbn [shrink]; [rewrite firstn_all2 by lia; reflexivity|]. destruct (Nat.ltb_spec N (length t)) as [G|G]; [|rewrite firstn_all2 by lia; reflexivity].
  destruct t as [|p t] using rev_ind; [cbn in G; lia|]. clear IHt. rewrite app_length in *. cbn [length] in *. rewrite remove_ok by (destruct t; [cbn in G; lia|discriminate]). rewrite IH by lia. f_equal.
  rewrite firstn_app. replace (N - length t) with 0 by lia. cbn [firstn]. now rewrite app_nil_r.
Qed.
Lemma prune_ok : forall f (t : list (Z * D)) th, desc t -> length t < f -> (t = [] \/ exists p, In p t /\ (th <= fst p)%Z) ->
  exists keep rest, prune_loop f t th = Some keep /\ t = keep ++ rest /\ Forall (fun p => (th <= fst p)%Z) keep /\ Forall (fun p => (fst p < th)%Z) rest.
Proof.
  induction f as [|f IH]; intros t th S L E; [lia|]. destruct t as [|q t] using rev_ind; [exists [], []; cbn; auto|]. clear IHt.
  destruct (t ++ [q]) as [|p r] eqn:Q; [destruct t; discriminate Q|]. cbn [prune_loop]. rewrite <- Q in *. rewrite last_last. destruct (Z.ltb_spec (fst q) th) as [G|G].
  - destruct E as [E|(w & W & G2)]; [destruct t; discriminate E|]. assert (NT : t <> []). { intros ->. destruct W as [<-|[]]. lia. }
    rewrite remove_ok by auto. rewrite app_length in L. cbn in L. assert (St : desc t). { clear -S. induction t as [|x t IH]; [constructor|]. cbn [app] in S. inversion S; subst. constructor; [apply IH; assumption|now apply Forall_app in H2]. }
    destruct (IH t th St) as (k & rest & A & B & C & F); [lia| |].
    + right. apply in_app_iff in W. destruct W as [W|[<-|[]]]; [eauto|lia].
    + exists k, (rest ++ [q]). split; [exact A|]. split; [rewrite B, app_assoc; reflexivity|]. split; [auto|]. apply Forall_app. split; auto.
  - exists (t ++ [q]), []. rewrite app_nil_r. split; [reflexivity|]. split; [reflexivity|]. split; [|constructor]. clear -S G. induction t as [|x t IH]; cbn [app] in *; [constructor; [auto|constructor]|].
    inversion S; subst. constructor; [|auto]. rewrite Forall_forall in H2. specialize (H2 q (in_elt q t [])). lia.
Qed.
Lemma build_ok : forall (sc : D -> Z) xs t0, desc t0 -> let t := fold_left (fun t x => nb_insert (sc x) x t) xs t0 in
  desc t /\ Permutation t (t0 ++ map (fun x => (sc x, x)) xs) /\ forall k, filter (fun p => (fst p =? k)%Z) t = filter (fun p => (fst p =? k)%Z) (t0 ++ map (fun x => (sc x, x)) xs).
Proof.
  intros sc. induction xs as [|x xs IH]; intros t0 S; cbn [fold_left map].
  - rewrite app_nil_r. auto.
  - destruct (IH (nb_insert (sc x) x t0) (ins_desc _ _ _ S)) as (A & B & C). split; [exact A|]. split.
    + rewrite B. rewrite (ins_perm (sc x) x t0). cbn [app]. apply Permutation_middle.
    + intro k. rewrite C, !filter_app, ins_ties by auto. cbn [filter fst]. rewrite <- app_assoc. destruct (sc x =? k)%Z; reflexivity.
Qed.
End N.

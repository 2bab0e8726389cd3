(** The check of constraints on its own. *)
From Coq Require Import Ascii String Arith List Bool Lia Sorted.
From Verif Require Import DecSpec DecModel DecGapProofs DecHypProofs DecProofs.
Import ListNotations.
Open Scope nat_scope.
Lemma cmp_exact : forall want mid pre post, length mid = length want -> exists b, cmp_loop want (pre ++ mid ++ post) (length pre) = Some b /\ (b = false <-> mid = want).
Proof.
  induction want as [|w want IH]; intros mid pre post L; destruct mid as [|m mid]; cbn [length] in L; try lia.
  - exists false. split; [reflexivity|tauto].
  - cbn [cmp_loop app]. rewrite nth_error_app2, Nat.sub_diag by lia. cbn [nth_error]. destruct (str_eqb w m) eqn:E.
    + apply str_eqb_eq in E. subst m. destruct (IH mid (pre ++ [w]) post) as (b & Eb & Hb); [lia|]. rewrite app_length, <- app_assoc in Eb. cbn [length app] in Eb. rewrite Nat.add_1_r in Eb.
      exists b. split; [exact Eb|]. rewrite Hb. split; congruence.
    + exists true. split; [reflexivity|]. split; [discriminate|]. intro X. inversion X; subst. rewrite (proj2 (str_eqb_eq w w) eq_refl) in E. discriminate.
Qed.
(** the segment holding the first word of a constrained one must be it, with its words *)
Definition kept (ps : list (seg * list str)) (c : seg * list str) : Prop := forall p, In p ps -> in_seg (fst p) (fst (fst c)) -> p = c.
Lemma first_unique : forall (a b : list (seg * list str)) p q x, ForallOrdPairs disjoint (map fst (a ++ p :: b)) -> in_seg (fst p) x -> in_seg (fst q) x -> In q (a ++ p :: b) -> q = p.
Proof.
  induction a as [|y a IH]; intros b p q x D P Q I; cbn [app map] in *; inversion D as [|? ? F D']; subst; rewrite Forall_forall in F.
  - destruct I as [<-|I]; auto. exfalso. apply (F (fst q) (in_map _ _ _ I) x). auto.
  - destruct I as [<-|I]; [|eapply IH; eauto]. exfalso. apply (F (fst p) (in_map fst _ _ (in_elt p a b)) x). auto.
Qed.
Lemma check_one : forall ps c, ForallOrdPairs disjoint (map fst ps) ->
  exists b, transViolatesSrcPhrConstraint c (map fst ps) (lens 0 ps) (flat_map snd ps) = Some b /\ (b = false <-> kept ps c).
Proof.
  intros ps c D. unfold transViolatesSrcPhrConstraint. destruct (related_spec _ (fst (fst c)) ps []) as (o & E & O). cbn [length app] in E. rewrite E.
  destruct o as [[s [lo hi]]|].
  - destruct O as (b1 & p & b2 & -> & I & -> & -> & ->). cbn [app]. 
    assert (K : kept (b1 ++ p :: b2) c <-> p = c). { split; [intro K; apply K; [apply in_elt|exact I]|]. intros -> q Q Iq. eapply first_unique; eauto. }
    destruct (seg_eqb (fst c) (fst p)) eqn:SG.
    2:{ exists true. split; [reflexivity|]. rewrite K. split; [discriminate|]. intros ->. rewrite (proj2 (seg_eqb_eq _ _) eq_refl) in SG. discriminate. }
    apply seg_eqb_eq in SG. rewrite usub_ok by lia. replace (tlen b1 + length (snd p) + 1 - S (tlen b1)) with (length (snd p)) by lia.
    destruct (Nat.eqb_spec (length (snd c)) (length (snd p))) as [L|L].
    + rewrite flat_map_app. cbn [flat_map]. replace (S (tlen b1) - 1) with (tlen b1) by lia.
      destruct (cmp_exact (snd c) (snd p) (flat_map snd b1) (flat_map snd b2) (eq_sym L)) as (b & Eb & Hb). exists b. split; [exact Eb|]. rewrite Hb, K.
      split; intro X; [destruct p, c; cbn in *; congruence|congruence].
    + exists true. split; [reflexivity|]. rewrite K. split; [discriminate|]. intros ->. congruence.
  - exists false. split; [reflexivity|]. split; [|reflexivity]. intros _ p P I. exfalso. exact (O p P I).
Qed.
Lemma check_all : forall cs ps, ForallOrdPairs disjoint (map fst ps) ->
  exists b, translationSatisfiesConstraints cs (map fst ps) (lens 0 ps) (flat_map snd ps) = Some b /\ (b = true <-> forall c, In c cs -> kept ps c).
Proof.
  intros cs ps D. unfold translationSatisfiesConstraints. induction cs as [|c cs IH].
  - exists true. split; [reflexivity|]. split; [intros _ c []|reflexivity].
  - cbn [transViolates]. destruct (check_one ps c D) as (v & -> & V). destruct v.
    + exists false. split; [reflexivity|]. split; [discriminate|]. intro K. assert (true = false) by (apply V, K; now left). discriminate.
    + destruct IH as (b & -> & B). exists b. split; [reflexivity|]. rewrite B. split.
      * intros K x [<-|X]; [now apply V|auto].
      * intros K x X. apply K. now right.
Qed.

(** C83-C84: the decoder's search, for any translation model. *)
From Coq Require Import ZArith Arith List Bool Lia.
From Verif Require Import StackSpec StackModel SearchSpec SearchModel SearchSessionProofs.
Import ListNotations.
Open Scope nat_scope.

Section Search.
(** a translation model: hypotheses (which the containers can store), their states, classes, estimates, distances and extensions *)
Variables (H : Type) (enc : H -> nat) (dec : nat -> H).
Variables (st : H -> nat) (cl : H -> nat * nat) (heur : H -> Z) (dist : H -> nat) (complete : H -> bool) (succs : H -> list (H * Z)).
Variables (null : H * Z) (start : H) (s0 : Z) (J : nat).
(** decoder parameters *)
Variables (bf prune : bool) (I MAXIT : nat) (GEPS LOWEST WORST : Z) (max : nat) (flag : bool).
Notation session := (session H enc dec st cl heur dist complete succs null bf prune I MAXIT GEPS LOWEST WORST max flag (start, s0)).
Notation translate := (translate H enc dec st cl heur dist complete succs null bf prune I MAXIT GEPS LOWEST WORST max flag (start, s0)).

(** ** C83 whatever the parameters (stack size, hypotheses taken per iteration, pruning, search order), a translation and any number of
    requests for further ones finish after a bounded number of iterations and never fail; every result is the null hypothesis or an
    extension of the start scored with the sum of its extensions; a result which is not complete, with no iteration limit hit, means
    that the search space is exhausted and every later result is null. *)
Theorem C83_search_safe_sound_terminating : forall size,
  (forall h, dec (enc h) = h) -> finite_space H succs start size -> measured H succs complete start dist heur J ->
  (bf = true -> forall h, from_start H succs start h -> fst (cl h) = dist h) ->
  I <> 0 -> 1 <= MAXIT -> max <> 0 ->
  forall n, exists results D, session n = Some (results, D) /\ length results = S n /\
    Forall (fun r => (fst r = null \/ exists e, extends H succs start (fst (fst r)) e /\ snd (fst r) = (s0 + e)%Z) /\ snd r <= 2 + size start) results /\
    ForallOrdPairs (fun a b => snd a < MAXIT -> complete (fst (fst a)) = false -> fst b = null) results.
Proof.
  intros size DE FS MS CO NI MX NM n.
  apply (session_ok H enc dec st cl heur dist complete succs null bf prune I MAXIT GEPS LOWEST WORST DE start s0 size FS J); auto.
  intros h O. destruct (MS h O) as (A & B & _). auto.
Qed.
(** models whose extensions cover more and more of the sentence have finite search spaces *)
Theorem C83_progress_is_finite : (forall a b e, from_start H succs start a -> In (b, e) (succs a) -> dist a < dist b /\ dist b <= J) ->
  exists size, finite_space H succs start size.
Proof. apply progress_finite. Qed.

(** ** C84 taking one hypothesis at a time, with room for the search space, the first translation is a best one... *)
Theorem C84_best_translation : forall size C,
  (forall h, dec (enc h) = h) -> finite_space H succs start size -> measured H succs complete start dist heur J ->
  (bf = true -> forall h, from_start H succs start h -> fst (cl h) = dist h) ->
  I = 1 -> size start <= max -> size start < MAXIT -> complete (fst null) = false ->
  (forall h e, extends H succs start h e -> (LOWEST <= s0 + e)%Z) ->
  sound_states H succs complete start st heur dist ->
  (bf = false -> flag = false /\ admissible H succs complete start heur) ->
  best_score H succs complete start s0 C ->
  (prune = true -> bf = false /\ (WORST <= C)%Z) ->
  exists t score it D, translate = Some ((t, score), it, D) /\ complete t = true /\ score = C /\ exists e, extends H succs start t e /\ score = (s0 + e)%Z.
Proof.
  intros size C DE FS MS CO EI RM MX NI LOW SS F BS PR.
  assert (M1 : forall h, from_start H succs start h -> dist h <= J /\ (complete h = true <-> dist h = J)) by (intros h O; destruct (MS h O) as (A & B & _); auto).
  assert (M2 : forall c, from_start H succs start c -> complete c = true -> heur c = 0%Z) by (intros c O Cc; apply (MS c O); auto).
  assert (M3 : forall c, from_start H succs start c -> complete c = true -> succs c = []) by (intros c O Cc; apply (MS c O); auto).
  destruct (translate_best H enc dec st cl heur dist complete succs null bf prune I MAXIT GEPS LOWEST WORST DE start s0 size FS J M1 CO M2 M3) with (max := max) (flag := flag) (C := C)
    as ([t s] & it & D & E & Ct & Es & R); auto.
  { intros h s (e & X & ->). eauto. }
  exists t, s, it, D. auto.
Qed.
(** ...and, however small the stacks and whatever is recombined, later translations never score more than earlier ones *)
Theorem C84_nbest_order : forall size,
  (forall h, dec (enc h) = h) -> finite_space H succs start size -> measured H succs complete start dist heur J ->
  (bf = true -> forall h, from_start H succs start h -> fst (cl h) = dist h) ->
  I = 1 -> max <> 0 -> complete (fst null) = false ->
  (bf = false -> flag = false /\ admissible H succs complete start heur) ->
  forall n results D, session n = Some (results, D) ->
  ForallOrdPairs (fun a b => complete (fst (fst a)) = true -> complete (fst (fst b)) = true -> (snd (fst b) <= snd (fst a))%Z) results.
Proof.
  intros size DE FS MS CO EI NM NI F n results D E.
  assert (M1 : forall h, from_start H succs start h -> dist h <= J /\ (complete h = true <-> dist h = J)) by (intros h O; destruct (MS h O) as (A & B & _); auto).
  assert (M2 : forall c, from_start H succs start c -> complete c = true -> heur c = 0%Z) by (intros c O Cc; apply (MS c O); auto).
  assert (M3 : forall c, from_start H succs start c -> complete c = true -> succs c = []) by (intros c O Cc; apply (MS c O); auto).
  exact (session_order H enc dec st cl heur dist complete succs null bf prune I MAXIT GEPS LOWEST WORST DE start s0 size FS J M1 CO M2 M3 NI EI max flag n results D NM F E).
Qed.
End Search.

(** a small search space: 0 -> 1 (-1), 0 -> 2 (-3), 1 -> 3 (-1), where 2 and 3 are complete; the best translation is 3 with score -2 *)
Definition g_succs (h : nat) : list (nat * Z) := match h with 0 => [(1, (-1)%Z); (2, (-3)%Z)] | 1 => [(3, (-1)%Z)] | _ => [] end.
Definition g_complete (h : nat) : bool := 2 <=? h.
Definition g_dist (h : nat) : nat := Nat.min h 2.
Definition g_size (h : nat) : nat := match h with 0 => 4 | 1 => 2 | _ => 1 end.
Definition g_id (h : nat) : nat := h.
Definition g_class (h : nat) : nat * nat := (g_dist h, 0).
Definition g_class2 (h : nat) : nat * nat := (g_dist h, h).
Definition g_succs2 (h : nat) : list (nat * Z) := match h with 0 => [(2, (-3)%Z); (3, (-2)%Z)] | _ => [] end.

Lemma g_from : forall h, from_start nat g_succs 0 h -> h < 4.
Proof. intros h (e & E). induction E as [|b e c x E IH Q]; [lia|]. destruct b as [|[|b]]; cbn in Q; [destruct Q as [Q|[Q|[]]]; inversion Q; lia|destruct Q as [Q|[]]; inversion Q; lia|destruct Q]. Qed.
Lemma g_exts : forall c e, extends nat g_succs 0 c e -> In (c, e) [(0, 0%Z); (1, (-1)%Z); (2, (-3)%Z); (3, (-2)%Z)].
Proof.
  intros c e E. induction E as [|b e c x E IH Q]; [now left|]. cbn in IH. destruct IH as [X|[X|[X|[X|[]]]]]; inversion X; subst; cbn in Q;
    repeat match goal with Q : _ \/ _ |- _ => destruct Q as [Q|Q] | Q : False |- _ => destruct Q end; inversion Q; subst; cbn; auto 10.
Qed.
(** the hypotheses of C84 are met by this space, with one hypothesis per iteration, in both search orders *)
Example C83_C84_nonvacuous : forall bf,
  finite_space nat g_succs 0 g_size /\ measured nat g_succs g_complete 0 g_dist (fun _ => 0%Z) 2 /\
  (forall h, fst (g_class h) = g_dist h) /\ sound_states nat g_succs g_complete 0 g_id (fun _ => 0%Z) g_dist /\
  admissible nat g_succs g_complete 0 (fun _ => 0%Z) /\ best_score nat g_succs g_complete 0 0 (-2) /\
  option_map fst (session nat g_id g_id g_id g_class (fun _ => 0%Z) g_dist g_complete g_succs (0, 0%Z) bf false 1 100 0 (-1000) (-1000) 4 bf (0, 0%Z) 2)
    = Some [((3, (-2)%Z), 4); ((2, (-3)%Z), 2); ((0, 0%Z), 2)].
Proof.
  intro bf. split; [|split; [|split; [|split; [|split; [|split]]]]].
  - intros a F. apply g_from in F. destruct a as [|[|[|[|a]]]]; try reflexivity; lia.
  - intros h F. apply g_from in F. destruct h as [|[|[|[|h]]]]; cbn; try lia; (split; [lia|split; [split; intro; (discriminate || auto)|intro; try discriminate; auto]]).
  - reflexivity.
  - intros a b Fa Fb E. unfold g_id in E. subst b. repeat split; auto. intros c e Q. exists c. auto.
  - intros a c e (e0 & F) E Cc. cut (e <= 0)%Z; [lia|]. clear - E. induction E as [|b e c x E IH Q]; [lia|].
    destruct b as [|[|b]]; cbn in Q; [destruct Q as [Q|[Q|[]]]; inversion Q; lia|destruct Q as [Q|[]]; inversion Q; lia|destruct Q].
  - split.
    + exists 3, (-2)%Z. split; [|split; [reflexivity|lia]]. change (-2)%Z with (0 + -1 + -1)%Z. eapply ext_step; [eapply ext_step; [apply ext_refl|left; reflexivity]|left; reflexivity].
    + intros c e E Cc. apply g_exts in E. cbn in E. destruct E as [X|[X|[X|[X|[]]]]]; inversion X; subst; try discriminate; lia.
  - destruct bf; vm_compute; reflexivity.
Qed.
(** finding: taking more than one hypothesis per iteration loses the guarantee: a complete hypothesis ends the search although a
    hypothesis taken with it had a better completion (here I = 2 returns 2 with score -3) *)
Theorem C84_two_per_iteration_refuted :
  option_map (fun r => fst (fst r)) (translate nat g_id g_id g_id g_class (fun _ => 0%Z) g_dist g_complete g_succs (0, 0%Z) false false 2 100 0 (-1000) (-1000) 4 false (0, 0%Z)) = Some (2, (-3)%Z) /\
  best_score nat g_succs g_complete 0 0 (-2).
Proof. split; [vm_compute; reflexivity|apply (C83_C84_nonvacuous true)]. Qed.
(** finding: a decoder switched to best-first search after a breadth-first translation keeps the containers in breadth-first order, and
    may then return a worse translation (here 2 with score -3 instead of 3 with score -2) *)
Theorem C84_stale_search_order_refuted :
  let run flag := option_map (fun r => fst (fst r)) (translate nat g_id g_id g_id g_class2 (fun _ => 0%Z) g_dist g_complete g_succs2 (0, 0%Z) false false 1 100 0 (-1000) (-1000) 4 flag (0, 0%Z)) in
  run true = Some (2, (-3)%Z) /\ run false = Some (3, (-2)%Z).
Proof. split; vm_compute; reflexivity. Qed.
Print Assumptions C83_search_safe_sound_terminating. Print Assumptions C83_progress_is_finite. Print Assumptions C84_best_translation. Print Assumptions C84_nbest_order.

(** C85: the word graph built by the decoder, for any translation model. *)
From Coq Require Import ZArith Arith List Bool Lia.
From Verif Require Import StackSpec StackModel SearchSpec SearchModel WgSpec WgModel WgBase WgNbMore SearchWgSpec SearchWgModel SearchWgProofs PropertiesSearch.
Import ListNotations.
Open Scope nat_scope.

Section SearchWg.
(** a translation model (as for C83-C84), the words of a hypothesis, and the decoder's parameters *)
Variables (H : Type) (enc : H -> nat) (dec : nat -> H).
Variables (st : H -> nat) (cl : H -> nat * nat) (heur : H -> Z) (dist : H -> nat) (complete : H -> bool) (succs : H -> list (H * Z)).
Variable words : H -> list nat.
Variables (null : H * Z) (start : H) (s0 : Z) (J : nat).
Variables (bf prune : bool) (I MAXIT : nat) (GEPS LOWEST WORST : Z) (max : nat) (flag : bool).
Notation session := (session H enc dec st cl heur dist complete succs null bf prune I MAXIT GEPS LOWEST WORST max flag (start, s0)).
Notation g_session := (g_session H enc dec st cl heur dist complete succs words null bf prune I MAXIT GEPS LOWEST WORST max flag (start, s0)).
Notation wpath g := (path (arcs g) (arcsPruned g)).

(** ** C85 a translation and any number of requests for further ones, with word graphs on, never fail, give the same results as without,
    and leave an acyclic graph made by legal calls in which
    - every path from state 0 spells an extension of the start: its words, and its score with the estimate (zero for a complete one);
      the state at its end is final when the extension is complete, and otherwise only when the first result was not complete and has that state;
    - every result other than the null hypothesis and the start is spelled, with its score, by a path from state 0, which ends in a final
      state when the result is complete. *)
Theorem C85_word_graph_of_the_search : 
  (forall h, dec (enc h) = h) -> measured H succs complete start dist heur J ->
  (bf = true -> forall h, from_start H succs start h -> fst (cl h) = dist h) -> max <> 0 ->
  appending H succs words start dist -> labelled_states H succs words start st heur dist ->
  forall n, exists first rest X, let g := gr X in
    g_session n = Some (first :: rest, X) /\ option_map fst (session n) = Some (first :: rest) /\
    (exists ops, Forall no_prune ops /\ wg_run ops wg_new = Some g) /\ acyclic (arcs g) /\
    (forall p t, p <> [] -> wpath g 0 p t -> exists c e, extends H succs start c e /\ words c = words start ++ path_words (arcs g) p /\
       (initScore g + pscore (arcs g) p = s0 + e + if complete c then 0 else heur c)%Z /\
       (complete c = true -> In t (finals g)) /\
       (In t (finals g) -> complete c = true \/ (complete (fst (fst first)) = false /\ st c = st (fst (fst first))))) /\
    Forall (fun r => fst r = null \/ fst r = (start, s0) \/ exists p t, p <> [] /\ wpath g 0 p t /\ from_start H succs start (fst (fst r)) /\
       words (fst (fst r)) = words start ++ path_words (arcs g) p /\
       (initScore g + pscore (arcs g) p = snd (fst r) + if complete (fst (fst r)) then 0 else heur (fst (fst r)))%Z /\
       (complete (fst (fst r)) = true -> In t (finals g))) (first :: rest).
Proof.
  intros DE MS CO NM AP LS n.
  assert (M1 : forall h, from_start H succs start h -> dist h <= J /\ (complete h = true <-> dist h = J)) by (intros h O; destruct (MS h O) as (A & B & _); auto).
  assert (M2 : forall c, from_start H succs start c -> complete c = true -> heur c = 0%Z) by (intros c O Cc; apply (MS c O); auto).
  destruct (graph_ok H enc dec st cl heur dist complete succs words null bf prune I MAXIT GEPS LOWEST WORST DE start s0 (fun _ => 0) J M1 CO AP LS M2 max flag n NM)
    as (first & rest & X & E & P & O & AC & S1 & S2).
  exists first, rest, X. cbv zeta. split; [auto|]. split; [now rewrite P|]. split; [auto|]. split; [auto|]. split.
  - intros p t NE Q. destruct (S1 p t NE Q) as (c & e & A & B & C & D & F). exists c, e. split; [auto|]. split; [auto|]. split; [|auto].
    destruct (complete c) eqn:Cc; [|exact C]. rewrite (M2 c) in C; auto. now exists e.
  - eapply Forall_impl; [|exact S2]. cbv beta. intros r [Q|[Q|(p & t & NE & Q & W & C & F & O1)]]; [auto|auto|]. right; right. exists p, t. split; [auto|]. split; [auto|]. split; [auto|]. split; [auto|]. split; [|auto].
    destruct (complete (fst (fst r))) eqn:Cc; [|exact C]. rewrite (M2 (fst (fst r))) in C; auto. 
Qed.

(** in breadth-first order, one hypothesis at a time, the arcs are in topological order: what the algorithms of C44 and C45 need *)
Theorem C85_breadth_first_graph_is_topological :
  (forall h, dec (enc h) = h) -> measured H succs complete start dist heur J ->
  (forall h, from_start H succs start h -> fst (cl h) = dist h) -> max <> 0 ->
  appending H succs words start dist -> labelled_states H succs words start st heur dist -> bf = true -> I = 1 ->
  forall n results X, g_session n = Some (results, X) -> topological (arcs (gr X)) (arcsPruned (gr X)).
Proof.
  intros DE MS CO NM AP LS EB EI n results X E.
  assert (M1 : forall h, from_start H succs start h -> dist h <= J /\ (complete h = true <-> dist h = J)) by (intros h O; destruct (MS h O) as (A & B & _); auto).
  eapply (g_session_topological H enc dec st cl heur dist complete succs words null bf prune I MAXIT GEPS LOWEST WORST DE start s0 (fun _ => 0) J M1); eauto.
Qed.
End SearchWg.

(** the search space of C83-C84 with words: 1 is "10", 2 is "20 21", 3 is "10 30" *)
Definition g_words (h : nat) : list nat := match h with 0 => [] | 1 => [10] | 2 => [20; 21] | _ => [10; 30] end.
Example C85_nonvacuous : forall bf,
  measured nat g_succs g_complete 0 g_dist (fun _ => 0%Z) 2 /\ (forall h, fst (g_class h) = g_dist h) /\
  appending nat g_succs g_words 0 g_dist /\ labelled_states nat g_succs g_words 0 g_id (fun _ => 0%Z) g_dist /\
  match g_session nat g_id g_id g_id g_class (fun _ => 0%Z) g_dist g_complete g_succs g_words (0, 0%Z) bf false 1 100 0 (-1000) (-1000) 4 bf (0, 0%Z) 1 with
  | Some (results, X) => map fst results = [(3, (-2)%Z); (2, (-3)%Z)] /\ finals (gr X) = [1; 3] /\
      map (fun a => (a_pred a, a_succ a, a_score a, a_words a)) (arcs (gr X)) = [(0, 1, (-3)%Z, [20; 21]); (0, 2, (-1)%Z, [10]); (2, 3, (-1)%Z, [30])]
  | None => False
  end.
Proof.
  intro bf. split; [apply (C83_C84_nonvacuous bf)|]. split; [reflexivity|]. split; [|split].
  - intros a b e O Q. destruct a as [|[|a]]; cbn in Q; repeat (destruct Q as [Q|Q]); try inversion Q; subst; (split; [eexists; reflexivity|cbn; lia]).
  - intros a b _ _ E. unfold g_id in E. subst b. repeat split; auto. intros c e Q. exists c. auto.
  - destruct bf; vm_compute; auto.
Qed.
(** finding: in best-first order the arcs need not be in topological order, which the one-pass algorithms of C44 and C45 need (the graph has
    to be reordered first, C57): an arc into a state can be added after the state was expanded.  Here 1 and 4 share their state: the arc from 2 to it
    comes after the arc leaving it *)
Definition t_succs (h : nat) : list (nat * Z) := match h with 0 => [(1, (-1)%Z); (2, (-2)%Z)] | 1 => [(3, (-5)%Z)] | 2 => [(4, (-1)%Z)] | 4 => [(5, (-5)%Z)] | _ => [] end.
Definition t_dist (h : nat) : nat := match h with 0 => 0 | 1 => 2 | 2 => 1 | 4 => 2 | _ => 3 end.
Definition t_state (h : nat) : nat := match h with 4 => 1 | 5 => 3 | n => n end.
Definition t_words (h : nat) : list nat := match h with 0 => [] | 1 => [10] | 2 => [20] | 3 => [10; 30] | 4 => [20; 40] | _ => [20; 40; 30] end.
Theorem C85_best_first_order_refuted :
  (forall bf, match g_session nat g_id g_id t_state (fun h => (t_dist h, 0)) (fun _ => 0%Z) t_dist (fun h => t_dist h =? 3) t_succs t_words (0, 0%Z) bf false 1 100 0 (-1000) (-1000) 4 bf (0, 0%Z) 0 with
   | Some (results, X) => map fst results = [(3, (-6)%Z)] /\ (topological (arcs (gr X)) (arcsPruned (gr X)) -> bf = true)
   | None => False end) /\
  appending nat t_succs t_words 0 t_dist /\ labelled_states nat t_succs t_words 0 t_state (fun _ => 0%Z) t_dist.
Proof.
  split; [|split].
  - intros [|].
    + vm_compute. split; auto.
    + destruct (g_session _ _ _ _ _ _ _ _ _ _ _ _ _ _ _ _ _ _ _ _ _ _) as [[results X]|] eqn:E; [|vm_compute in E; discriminate].
      split; [vm_compute in E; inversion E; reflexivity|]. intro T.
      assert (A : exists i j a b, j < i /\ alive (arcs (gr X)) (arcsPruned (gr X)) i a /\ alive (arcs (gr X)) (arcsPruned (gr X)) j b /\ a_succ a = a_pred b).
      { vm_compute in E. inversion E. cbn [gr arcs arcsPruned]. exists 3, 2. eexists. eexists. unfold alive. cbn. auto. }
      destruct A as (i & j & a & b & L & A & B & Q). pose proof (T i j a b A B Q). lia.
  - intros a b e _ Q. destruct a as [|[|[|[|[|a]]]]]; cbn in Q; repeat (destruct Q as [Q|Q]); try inversion Q; subst; (split; [eexists; reflexivity|cbn; lia]).
  - assert (F : forall h, from_start nat t_succs 0 h -> h < 6). { intros h (e & E). induction E as [|b e c x E IH Q]; [lia|]. destruct b as [|[|[|[|[|b]]]]]; cbn in Q; repeat (destruct Q as [Q|Q]); try inversion Q; subst; lia. }
    intros a b Fa Fb E. apply F in Fa. apply F in Fb.
    destruct a as [|[|[|[|[|[|a]]]]]]; [..|lia]; (destruct b as [|[|[|[|[|[|b]]]]]]; [..|lia]); cbn in E; try discriminate E; (split; [reflexivity|split; [reflexivity|]]);
      intros c e Q; cbn in Q; repeat (destruct Q as [Q|Q]); try inversion Q; subst;
      
      match goal with
      | |- exists d, In (d, _) (t_succs ?b) /\ t_state ?c = _ /\ _ => 
          (exists 1; split; [cbn; now auto|]; split; [reflexivity|now auto]) || (exists 2; split; [cbn; now auto|]; split; [reflexivity|now auto]) ||
          (exists 3; split; [cbn; now auto|]; split; [reflexivity|now auto]) || (exists 4; split; [cbn; now auto|]; split; [reflexivity|now auto]) ||
          (exists 3; split; [cbn; now auto|]; split; [reflexivity|intros x X; cbn in X; inversion X; reflexivity]) ||
          (exists 5; split; [cbn; now auto|]; split; [reflexivity|intros x X; cbn in X; inversion X; reflexivity])
      end.
Qed.
Print Assumptions C85_word_graph_of_the_search. Print Assumptions C85_breadth_first_graph_is_topological. Print Assumptions C85_best_first_order_refuted.

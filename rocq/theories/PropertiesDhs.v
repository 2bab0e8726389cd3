(** C127-C130: step-by-step downhill simplex (downhill_simplex). *)
From Coq Require Import Arith ZArith QArith List Bool Lia Lqa.
From Verif Require Import DhsSpec DhsModel DhsProofs DhsMoves.
Import ListNotations.
Local Open Scope nat_scope.
(** the tool, with its limit of iterations *)
Definition tool (max_it n : nat) (ftol pn qn : Q) (start : point) : list Q -> answer := step_by_step_simplex max_it n ftol pn qn start.
Definition final (r : point * Q * nat) (max_it : nat) : answer := let '(x, y, itr) := r in Result x y (negb (max_it <=? itr)).

(** ** C127: running the tool again and again *)
(** for every function the requests end, within a bound, in a result; this holds from every file of values the runs went through (resuming) *)
Theorem C127_terminates : forall max_it n ftol pn qn start g im xs,
  follows (tool max_it n ftol pn qn start) g im xs ->
  length xs <= n + 2 + 5 * max_it /\
  exists more ys x y ok, follows (tool max_it n ftol pn qn start) g (im ++ more) (xs ++ ys) /\ tool max_it n ftol pn qn start (im ++ more) = Result x y ok.
Proof.
  intros max_it n ftol pn qn start g im xs H. unfold tool, step_by_step_simplex in *. set (p := program max_it n ftol pn qn start) in *.
  destruct (ev g p) as [a zs] eqn:E. pose proof (program_count g max_it n ftol pn qn start) as C. fold p in C. rewrite E in C. cbn [snd] in C.
  assert (HD : forall a0 : point * Q * nat, is_result (let '(x, y, itr) := a0 in Result x y (negb (max_it <=? itr)))) by (intros [[x y] itr]; simpl; auto).
  destruct (follows_spec g _ p a zs HD E im xs H) as [i [Hi [Ex Ei]]]. split; [subst xs; rewrite firstn_length; lia|].
  destruct a as [[x y] itr]. exists (map g (skipn i zs)), (skipn i zs), x, y, (negb (max_it <=? itr)).
  subst im xs. rewrite <- map_app, firstn_skipn. split; [apply (follows_all g _ p _ _ E)|]. destruct (run_ev g (fun r => let '(x, y, itr) := r in Result x y (negb (max_it <=? itr))) p _ _ E) as [_ K]. specialize (K []). rewrite app_nil_r in K. exact K.
Qed.
Print Assumptions C127_terminates.
(** the requests are determined: two histories answered by the same function agree as far as they go *)
Theorem C127_determined : forall max_it n ftol pn qn start g im1 xs1 im2 xs2,
  follows (tool max_it n ftol pn qn start) g im1 xs1 -> follows (tool max_it n ftol pn qn start) g im2 xs2 -> length xs1 <= length xs2 ->
  xs1 = firstn (length xs1) xs2 /\ im1 = map g xs1 /\ im2 = map g xs2.
Proof.
  intros max_it n ftol pn qn start g im1 xs1 im2 xs2 H1 H2 L. unfold tool, step_by_step_simplex in *. set (p := program max_it n ftol pn qn start) in *.
  destruct (ev g p) as [a zs] eqn:E.
  assert (HD : forall a0 : point * Q * nat, is_result (let '(x, y, itr) := a0 in Result x y (negb (max_it <=? itr)))) by (intros [[x y] itr]; simpl; auto).
  destruct (follows_spec g _ p a zs HD E _ _ H1) as [i [Hi [E1 I1]]]. destruct (follows_spec g _ p a zs HD E _ _ H2) as [j [Hj [E2 I2]]].
  assert (L1 : length xs1 = i) by (rewrite E1, firstn_length; lia). assert (L2 : length xs2 = j) by (rewrite E2, firstn_length; lia).
  rewrite L1, E2, firstn_firstn. replace (min i j) with i by lia. subst im1 im2. rewrite <- E1, <- E2. auto.
Qed.
Print Assumptions C127_determined.
(** values behind the last one needed are not read *)
Theorem C127_extra : forall max_it n ftol pn qn start im more x y ok,
  tool max_it n ftol pn qn start im = Result x y ok -> tool max_it n ftol pn qn start (im ++ more) = Result x y ok.
Proof.
  intros max_it n ftol pn qn start im more x y ok H. unfold tool, step_by_step_simplex in *. rewrite run_more; auto.
  - intros [[a b] c]; simpl; auto.
  - unfold is_result. now rewrite H.
Qed.
Print Assumptions C127_extra.

(** ** C128: the result *)
Theorem C128_best : forall max_it n ftol pn qn start g im xs x y ok,
  follows (tool max_it n ftol pn qn start) g im xs -> tool max_it n ftol pn qn start im = Result x y ok ->
  y = g x /\ In x xs /\ (forall z, In z xs -> (y <= g z)%Q) /\ (length start = n -> (y <= g start)%Q).
Proof.
  intros max_it n ftol pn qn start g im xs x y ok H R. unfold tool, step_by_step_simplex in *. set (p := program max_it n ftol pn qn start) in *.
  destruct (ev g p) as [a zs] eqn:E.
  assert (HD : forall a0 : point * Q * nat, is_result (let '(x, y, itr) := a0 in Result x y (negb (max_it <=? itr)))) by (intros [[u v] itr]; simpl; auto).
  destruct (follows_spec g _ p a zs HD E _ _ H) as [i [Hi [E1 I1]]].
  destruct (run_ev g (fun r => let '(x, y, itr) := r in Result x y (negb (max_it <=? itr))) p _ _ E) as [K1 K2].
  destruct (Nat.eq_dec i (length zs)) as [EI|N]; [|rewrite I1, K1 in R by lia; discriminate].
  subst i. rewrite firstn_all in *. subst im xs. specialize (K2 []). rewrite app_nil_r in K2. rewrite R in K2. destruct a as [[u v] itr]. injection K2 as -> -> _.
  destruct (program_spec g max_it n ftol pn qn start u v itr zs E) as [P1 [P2 [P3 [r P4]]]]. split; auto. split; auto. split; auto. intro Ls.
  assert (ST : map (fun j => nth j start 0%Q) (seq 0 n) = start).
  { rewrite <- Ls. clear. apply nth_ext with (d := 0%Q) (d' := 0%Q); [now rewrite map_length, seq_length|]. intros j Hj. rewrite map_length, seq_length in Hj. now apply nth_map_seq. }
  rewrite <- ST. apply P3. rewrite P4. apply in_or_app. left. simpl. now left.
Qed.
Print Assumptions C128_best.
(** the limit: a run that converges in the last allowed iteration is reported as one that did not *)
Definition bump (x : point) : Q :=
  match x with [a; b; c] => if Qeq_bool a (1 # 2) then 100%Q else if Qle_bool 1 c || Qle_bool c (- (1 # 10)) || Qeq_bool a (1 # 6) then 1%Q else 0%Q | _ => 0%Q end.
Definition bump_values : list Q := map bump [[0; 0; 0]; [1; 0; 0]; [0; 1; 0]; [0; 0; 1]; [2 # 3; 2 # 3; -(1)]; [1 # 6; 1 # 6; 1 # 2]; [0; 0; 1 # 2]; [0; 0; 0]; [0; 0; 0]]%Q.
Theorem C128_limit_refuted : exists x y, tool 2 3 (1 # 100) 1 0 [0; 0; 0]%Q bump_values = Result x y true /\ tool 1 3 (1 # 100) 1 0 [0; 0; 0]%Q bump_values = Result x y false.
Proof. eexists. eexists. split; vm_compute; reflexivity. Qed.
Print Assumptions C128_limit_refuted.

(** ** C129: an iteration *)
Theorem C129_moves : forall g n s w b s' xs, length (sv s) = S n -> length (sf s) = S n -> first_max (sf s) w -> first_min (sf s) b -> (nth b (sf s) 0 < nth w (sf s) 0)%Q ->
  ev g (iteration n s) = (s', xs) ->
  exists h xr, second_max (sf s) w h /\ length xr = n /\ on_line (sv s) w 1 xr /\
  (((g xr < nth b (sf s) 0)%Q /\ exists xe, xs = [xr; xe] /\ length xe = n /\ on_line (sv s) w (2 # 1) xe /\ ((g xe < g xr)%Q /\ replaced g s w xe s' \/ (g xr <= g xe)%Q /\ replaced g s w xr s')) \/
   ((nth b (sf s) 0 <= g xr < nth h (sf s) 0)%Q /\ xs = [xr] /\ replaced g s w xr s') \/
   ((nth h (sf s) 0 <= g xr)%Q /\ exists xc, length xc = n /\
      ((g xr < nth w (sf s) 0)%Q /\ on_line (sv s) w (1 # 2) xc \/ (nth w (sf s) 0 <= g xr)%Q /\ on_line (sv s) w (- (1 # 2)) xc) /\
      ((g xc < nth w (sf s) 0)%Q /\ xs = [xr; xc] /\ replaced g s w xc s' \/
       (nth w (sf s) 0 <= g xc)%Q /\ xs = [xr; xc; nth w (sv s') []; nth h (sv s') []] /\ nth b (sv s') [] = nth b (sv s) [] /\
       (forall i, i <= n -> i <> b -> length (nth i (sv s') []) = n /\ halfway (nth b (sv s) []) (nth i (sv s) []) (nth i (sv s') [])) /\
       nth w (sf s') 0%Q = g (nth w (sv s') []) /\ nth h (sf s') 0%Q = g (nth h (sv s') []) /\ forall i, i <> w -> i <> h -> nth i (sf s') 0%Q = nth i (sf s) 0%Q))).
Proof. exact moves. Qed.
Print Assumptions C129_moves.

(** after a failed contraction every vertex but the best is moved, but only two are evaluated again: with three variables or more the simplex then holds a vertex with the value of another point
    (here 0 instead of 100), and with these values the search stops as converged *)
Theorem C129_stale_refuted : exists g n s s' xs,
  (forall i, i <= n -> nth i (sf s) 0%Q = g (nth i (sv s) [])) /\ length (sv s) = S n /\ length (sf s) = S n /\
  ev g (iteration n s) = (s', xs) /\ converged n (1 # 100) s' = true /\ exists i, i <= n /\ g (nth i (sv s') []) = 100%Q /\ nth i (sf s') 0%Q = 0%Q /\ ~ In (nth i (sv s') []) xs.
Proof.
  exists bump, 3, (mksx [[0; 0; 0]; [1; 0; 0]; [0; 1; 0]; [0; 0; 1]] [0; 0; 0; 1])%Q. eexists. eexists.
  split; [intros i Hi; do 4 (destruct i as [|i]; [vm_compute; reflexivity|]); lia|]. split; [reflexivity|]. split; [reflexivity|]. split; [vm_compute; reflexivity|]. split; [vm_compute; reflexivity|].
  exists 1. split; [lia|]. split; [vm_compute; reflexivity|]. split; [vm_compute; reflexivity|]. cbn [nth sv In]. intro H. repeat (destruct H as [H|H]; [discriminate H|]). exact H.
Qed.
Print Assumptions C129_stale_refuted.

(** ** C130: variables *)
Theorem C130_fixed : forall (vars : list (option Q)) (x : point), length x = getNumDims vars -> exists l, xToVarVec vars x = Some l /\ length l = length vars /\
  (forall i c, nth_error vars i = Some (Some c) -> nth_error l i = Some c) /\ map fst (filter (fun p => match snd p with None => true | Some _ => false end) (combine l vars)) = x.
Proof. exact xToVarVec_ok. Qed.
Print Assumptions C130_fixed.
Theorem C130_initial : forall (vars : list (option Q)) (vals : list Q), vals = [] \/ length vals = length vars -> exists x, gen_init_sol vars vals = Some x /\ length x = getNumDims vars /\
  (vals <> [] -> forall l, xToVarVec vars x = Some l -> forall i, nth_error vars i = Some None -> nth_error l i = nth_error vals i) /\
  (vals = [] -> forall a, In a x -> (a * inject_Z (Z.of_nat (length x)) == 1)%Q).
Proof.
  intros vars vals [ -> |H]; unfold gen_init_sol.
  - eexists. split; [reflexivity|]. rewrite repeat_length. split; auto. split; [congruence|]. intros _ a Ha. assert (N : getNumDims vars <> 0) by (intro Z; rewrite Z in Ha; destruct Ha).
    apply repeat_spec in Ha. subst a. field. intro Z. change 0%Q with (inject_Z 0) in Z. apply (proj1 (inject_Z_injective _ _)) in Z. lia.
  - destruct vals as [|a vals]; [destruct vars as [|v vars]; [|discriminate]; exists []; simpl; repeat split; auto; [congruence|intros _ a []]|].
    destruct (pick_free_ok vars (a :: vals) H) as [x [E [L K]]]. exists x. split; [exact E|]. split; auto. split; auto. congruence.
Qed.
Print Assumptions C130_initial.
(** more initial values than variables are read past the end *)
Theorem C130_too_many_refuted : gen_init_sol [None] [1%Q; 2%Q] = None.
Proof. reflexivity. Qed.
Print Assumptions C130_too_many_refuted.

(** ** concrete cases *)
Definition parabola (x : point) : Q := match x with [a] => ((a - 1) * (a - 1))%Q | _ => 0%Q end.
Example C127_nonvacuous : exists x, follows (tool 5 1 (1 # 100) 1 0 [0%Q]) parabola [parabola [0%Q]; parabola [1%Q]] [[0%Q]; [1%Q]] /\ tool 5 1 (1 # 100) 1 0 [0%Q] [parabola [0%Q]; parabola [1%Q]] = Evaluate x.
Proof.
  eexists. split; [|vm_compute; reflexivity].
  apply (fol_snoc _ parabola [parabola [0%Q]] [[0%Q]] [1%Q]); [|vm_compute; reflexivity]. apply (fol_snoc _ parabola [] [] [0%Q]); [constructor|vm_compute; reflexivity].
Qed.
Example C128_nonvacuous : exists x y, tool 2 3 (1 # 100) 1 0 [0; 0; 0]%Q bump_values = Result x y true /\ exists xs, follows (tool 2 3 (1 # 100) 1 0 [0; 0; 0]%Q) bump bump_values xs.
Proof.
  eexists. eexists. split; [vm_compute; reflexivity|]. pose proof (follows_all bump (fun r => let '(x, y, itr) := r in Result x y (negb (2 <=? itr))) (program 2 3 (1 # 100) 1 0 [0; 0; 0]%Q)) as F.
  destruct (ev bump (program 2 3 (1 # 100) 1 0 [0; 0; 0]%Q)) as [a xs] eqn:E. specialize (F _ _ eq_refl). exists xs.
  replace bump_values with (map bump xs); [exact F|]. vm_compute in E. injection E as _ <-. vm_compute. reflexivity.
Qed.
Example C129_nonvacuous : let s := mksx [[0; 0]; [1; 0]; [0; 1]]%Q [3; 1; 2]%Q in
  first_max (sf s) 0 /\ first_min (sf s) 1 /\ exists s' x, ev (fun _ => (3 # 2)%Q) (iteration 2 s) = (s', [x]) /\ map Qred x = [1; 1]%Q.
Proof.
  cbv zeta. split; [|split].
  - split; [simpl; lia|]. split; intros j Hj; [|lia]. cbn [sf length] in *. do 3 (destruct j as [|j]; [cbn; lra|]). lia.
  - split; [simpl; lia|]. split; intros j Hj; cbn [sf length] in *; do 3 (destruct j as [|j]; [cbn; try lra; lia|]); lia.
  - eexists. eexists. split; vm_compute; reflexivity.
Qed.
Example C130_nonvacuous : getNumDims [None; Some 5%Q; None] = 2 /\ xToVarVec [None; Some 5%Q; None] [1%Q; 2%Q] = Some [1%Q; 5%Q; 2%Q] /\ gen_init_sol [None; Some 5%Q; None] [7%Q; 8%Q; 9%Q] = Some [7%Q; 9%Q].
Proof. repeat split. Qed.

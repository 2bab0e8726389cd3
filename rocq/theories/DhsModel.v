(** /repo/src/downhill_simplex/step_by_step_dhs.c and thot_dhs_step_by_step_min.cc.  Numbers are exact rationals; [pn] and [qn] (irrational offsets of the initial simplex) are parameters;
    the file of images is the list of its values (blank lines are skipped by get_next_funk).  constrain is NULL (thot_dhs_step_by_step_min.cc:128). *)
From Coq Require Import Arith ZArith QArith List Bool.
From Verif Require Import DhsSpec.
Import ListNotations.
Local Open Scope nat_scope.
Definition qlt (a b : Q) : bool := negb (Qle_bool b a).
(** the program up to its next call of step_by_step_objfunc (:444-461), which copies the vertex to x and reads the next value *)
Inductive prog (A : Type) := Ret (a : A) | Ask (x : point) (k : Q -> prog A).
Arguments Ret {A} _.
Arguments Ask {A} _ _.
Fixpoint bind {A B} (p : prog A) (k : A -> prog B) : prog B := match p with Ret a => k a | Ask x c => Ask x (fun y => bind (c y) k) end.
(** no value left: return DSO_EVAL_FUNC (:411-441) with the vertex in x *)
Fixpoint run {A} (p : prog A) (images : list Q) (done : A -> answer) : answer :=
  match p with
  | Ret a => done a
  | Ask x k => match images with [] => Evaluate x | y :: r => run (k y) r done end
  end.
(** vertices and values *)
Record simplex := mksx { sv : list point; sf : list Q }.
Fixpoint set_nth {A} (l : list A) (k : nat) (x : A) : list A := match l, k with [], _ => [] | _ :: r, 0 => x :: r | y :: r, S k' => y :: set_nth r k' x end.
Definition V (s : simplex) (i j : nat) : Q := nth j (nth i (sv s) []) 0%Q.
Definition F (s : simplex) (i : nat) : Q := nth i (sf s) 0%Q.
Definition setVF (s : simplex) (i : nat) (x : point) (y : Q) : simplex := mksx (set_nth (sv s) i x) (set_nth (sf s) i y).
(** :155-177 *)
Definition find_vg (n : nat) (s : simplex) : nat := fold_left (fun vg j => if qlt (F s vg) (F s j) then j else vg) (seq 0 (S n)) 0.
Definition find_vs (n : nat) (s : simplex) : nat := fold_left (fun vs j => if qlt (F s j) (F s vs) then j else vs) (seq 0 (S n)) 0.
Definition find_vh (n : nat) (s : simplex) (vs vg : nat) : nat := fold_left (fun vh j => if qlt (F s vh) (F s j) && qlt (F s j) (F s vg) then j else vh) (seq 0 (S n)) vs.
(** :179-188 *)
Definition centroid (n : nat) (s : simplex) (vg : nat) : point :=
  map (fun j => (fold_left (fun cent m => if m =? vg then cent else (cent + V s m j)%Q) (seq 0 (S n)) 0 / inject_Z (Z.of_nat n))%Q) (seq 0 n).
(** :190-194, :216-219, :255-258, :273-276; ALPHA, GAMMA, BETA of step_by_step_dhs.h *)
Definition reflect (n : nat) (vm : point) (w : point) : point := map (fun j => (nth j vm 0 + 1 * (nth j vm 0 - nth j w 0))%Q) (seq 0 n).
Definition expand (n : nat) (vm vr : point) : point := map (fun j => (nth j vm 0 + (2 # 1) * (nth j vr 0 - nth j vm 0))%Q) (seq 0 n).
Definition contract_out (n : nat) (vm vr : point) : point := map (fun j => (nth j vm 0 + (1 # 2) * (nth j vr 0 - nth j vm 0))%Q) (seq 0 n).
Definition contract_in (n : nat) (vm w : point) : point := map (fun j => (nth j vm 0 - (1 # 2) * (nth j vm 0 - nth j w 0))%Q) (seq 0 n).
(** :303-309; the values are not recomputed *)
Definition shrink (n : nat) (s : simplex) (vs : nat) : simplex :=
  mksx (map (fun row => if row =? vs then nth row (sv s) [] else map (fun j => (V s vs j + (V s row j - V s vs j) / (2 # 1))%Q) (seq 0 n)) (seq 0 (S n))) (sf s).
(** :153-334: one iteration *)
Definition iteration (n : nat) (s : simplex) : prog simplex :=
  let vg := find_vg n s in
  let vs := find_vs n s in
  let vh := find_vh n s vs vg in
  let vm := centroid n s vg in
  let vr := reflect n vm (nth vg (sv s) []) in
  Ask vr (fun fr =>
  let s1 := if qlt fr (F s vh) && Qle_bool (F s vs) fr then setVF s vg vr fr else s in
  bind (if qlt fr (F s1 vs)
        then let ve := expand n vm vr in Ask ve (fun fe => Ret (if qlt fe fr then setVF s1 vg ve fe else setVF s1 vg vr fr))
        else Ret s1) (fun s2 =>
  if Qle_bool (F s2 vh) fr then
    let vc := if qlt fr (F s2 vg) then contract_out n vm vr else contract_in n vm (nth vg (sv s2) []) in
    Ask vc (fun fc =>
    if qlt fc (F s2 vg) then Ret (setVF s2 vg vc fc)
    else let s3 := shrink n s2 vs in
         Ask (nth vg (sv s3) []) (fun yg =>
         let s4 := mksx (sv s3) (set_nth (sf s3) vg yg) in
         Ask (nth vh (sv s4) []) (fun yh => Ret (mksx (sv s4) (set_nth (sf s4) vh yh)))))
  else Ret s2)).
(** :346-361: sqrt of the sum is below FTOL, FTOL not negative *)
Definition converged (n : nat) (ftol : Q) (s : simplex) : bool :=
  let favg := (fold_left (fun a j => a + F s j) (seq 0 (S n)) 0 / inject_Z (Z.of_nat (S n)))%Q in
  qlt (fold_left (fun a j => a + (F s j - favg) * (F s j - favg) / inject_Z (Z.of_nat n)) (seq 0 (S n)) 0)%Q (ftol * ftol)%Q.
(** :152-363: iteration [itr] and [todo - 1] more; the result has the value of itr after the loop *)
Fixpoint loop (n : nat) (ftol : Q) (todo itr : nat) (s : simplex) : prog (simplex * nat) :=
  match todo with
  | 0 => Ret (s, itr)
  | S todo' => bind (iteration n s) (fun s' => if converged n ftol s' then Ret (s', itr) else loop n ftol todo' (S itr) s')
  end.
(** :103-122 *)
Definition initial (n : nat) (pn qn : Q) (start : point) : list point :=
  map (fun i => if i =? 0 then map (fun j => nth j start 0%Q) (seq 0 n) else map (fun j => if i - 1 =? j then (pn + nth j start 0)%Q else (qn + nth j start 0)%Q) (seq 0 n)) (seq 0 (S n)).
(** :128-136 *)
Fixpoint ask_all (v : list point) : prog (list Q) :=
  match v with [] => Ret [] | x :: r => Ask x (fun y => bind (ask_all r) (fun l => Ret (y :: l))) end.
(** :42-408; [max_it] is MAX_IT *)
Definition program (max_it n : nat) (ftol pn qn : Q) (start : point) : prog (point * Q * nat) :=
  let v := initial n pn qn start in
  bind (ask_all v) (fun f =>
  bind (loop n ftol max_it 1 (mksx v f)) (fun r =>
  let s := fst r in
  let vs := find_vs n s in
  Ask (nth vs (sv s) []) (fun min => Ret (nth vs (sv s) [], min, snd r)))).
Definition step_by_step_simplex (max_it n : nat) (ftol pn qn : Q) (start : point) (images : list Q) : answer :=
  run (program max_it n ftol pn qn start) images (fun r => let '(x, y, itr) := r in Result x y (negb (max_it <=? itr))).
Definition MAX_IT : nat := 50 * 100.
(** thot_dhs_step_by_step_min.cc:165-178 genFixedVarsBoolVector, :192-206 xToVarVec, :208-219 getNumDims, :236-258 gen_init_sol: a variable is free (None, given as -0) or fixed;
    None: a read past the end of x or fixedVarsBoolVec *)
Fixpoint xToVarVec (vars : list (option Q)) (x : point) : option (list Q) :=
  match vars, x with
  | [], _ => Some []
  | Some c :: r, _ => match xToVarVec r x with None => None | Some l => Some (c :: l) end
  | None :: r, a :: x' => match xToVarVec r x' with None => None | Some l => Some (a :: l) end
  | None :: _, [] => None
  end.
Definition getNumDims (vars : list (option Q)) : nat := length (filter (fun v => match v with None => true | _ => false end) vars).
Fixpoint pick_free (vars : list (option Q)) (initVals : list Q) : option point :=
  match initVals, vars with
  | [], _ => Some []
  | a :: r, None :: q => match pick_free q r with None => None | Some l => Some (a :: l) end
  | _ :: r, Some _ :: q => pick_free q r
  | _ :: _, [] => None
  end.
Definition gen_init_sol (vars : list (option Q)) (initVals : list Q) : option point :=
  match initVals with
  | [] => Some (repeat (1 / inject_Z (Z.of_nat (getNumDims vars)))%Q (getNumDims vars))
  | _ => pick_free vars initVals
  end.

(** Alignment containers: lookups by sentence pair. *)
From Coq Require Import Ascii String Arith ZArith NArith QArith List Bool Lia Sorted.
From Verif Require Import TextSpec TextModel TextProofs VocabSpec VocabModel VocabProofs AligSpec AligModel AligProofs PmModel PmText GfmtModel GfmtProofs GfmtText WgfSpec WgfModel WgfText GizaSpec GizaModel GizaText GizaProofs GizaTotal ContSpec ContModel.
Import ListNotations.
Local Open Scope nat_scope.
(** ** the criterion *)
Lemma loop_irrefl : forall a, vlt_loop a a = false.
Proof. induction a as [|x a IH]; [reflexivity|]. cbn [vlt_loop]. now rewrite Nat.ltb_irrefl. Qed.
Lemma vlt_irrefl : forall a, vlt a a = false.
Proof. intros a. unfold vlt. now rewrite Nat.ltb_irrefl, loop_irrefl. Qed.
Lemma loop_total : forall a b, length a = length b -> vlt_loop a b = false -> vlt_loop b a = false -> a = b.
Proof.
  induction a as [|x a IH]; intros [|y b] L A B; try discriminate L; [reflexivity|]. cbn [vlt_loop] in A, B.
  destruct (Nat.ltb_spec y x); destruct (Nat.ltb_spec x y); try discriminate; try lia. rewrite (IH b) by (auto; cbn in L; lia). f_equal. lia.
Qed.
Lemma vlt_total : forall a b, vlt a b = false -> vlt b a = false -> a = b.
Proof.
  intros a b A B. unfold vlt in A, B. destruct (Nat.ltb_spec (length b) (length a)); destruct (Nat.ltb_spec (length a) (length b)); try discriminate; try lia. apply loop_total; auto. lia.
Qed.
Lemma loop_trans : forall a b c, length a = length b -> length b = length c -> vlt_loop a b = true -> vlt_loop b c = true -> vlt_loop a c = true.
Proof.
  induction a as [|x a IH]; intros [|y b] [|z c] L1 L2 A B; try discriminate. cbn [vlt_loop] in *.
  destruct (Nat.ltb_spec y x); [discriminate|]. destruct (Nat.ltb_spec z y); [discriminate|]. destruct (Nat.ltb_spec z x); [lia|]. destruct (Nat.ltb_spec x z); [reflexivity|].
  destruct (Nat.ltb_spec x y); [lia|]. destruct (Nat.ltb_spec y z); [lia|]. apply (IH b); auto; cbn in *; lia.
Qed.
Lemma vlt_trans : forall a b c, vlt a b = true -> vlt b c = true -> vlt a c = true.
Proof.
  intros a b c A B. unfold vlt in *. destruct (Nat.ltb_spec (length b) (length a)); [discriminate|]. destruct (Nat.ltb_spec (length c) (length b)); [discriminate|]. destruct (Nat.ltb_spec (length c) (length a)); [lia|].
  destruct (Nat.ltb_spec (length a) (length c)); [reflexivity|]. destruct (Nat.ltb_spec (length a) (length b)); [lia|]. destruct (Nat.ltb_spec (length b) (length c)); [lia|]. apply (loop_trans a b c); auto; lia.
Qed.
(** ** the map *)
Definition sorted (m : list (list nat * list info)) : Prop := StronglySorted (fun p q => vlt (fst p) (fst q) = true) m.
Lemma mget_eq : forall k k' v r, mget k ((k', v) :: r) = if ids_dec k k' then Some v else mget k r.
Proof.
  intros. cbn [mget]. destruct (ids_dec k k') as [->|N]; [now rewrite vlt_irrefl|]. destruct (vlt k k') eqn:A; [reflexivity|]. destruct (vlt k' k) eqn:B; [reflexivity|]. exfalso. apply N. now apply vlt_total.
Qed.
Lemma mget_mset : forall m k v k', mget k' (mset k v m) = if ids_dec k' k then Some v else mget k' m.
Proof.
  induction m as [|[k0 v0] m IH]; intros k v k'; cbn [mset]; [now rewrite mget_eq|]. destruct (vlt k k0) eqn:A; [now rewrite mget_eq|]. destruct (vlt k0 k) eqn:B.
  - rewrite !mget_eq, IH. destruct (ids_dec k' k0) as [->|N]; [|reflexivity]. destruct (ids_dec k0 k) as [->|_]; [|reflexivity]. now rewrite vlt_irrefl in B.
  - rewrite !mget_eq. assert (k = k0) as -> by now apply vlt_total. destruct (ids_dec k' k0); reflexivity.
Qed.
Lemma mset_keys : forall m k v p, In p (mset k v m) -> p = (k, v) \/ In p m.
Proof.
  induction m as [|[k0 v0] m IH]; intros k v p H; cbn [mset] in H; [destruct H as [H|[]]; auto|]. destruct (vlt k k0); [destruct H as [H|H]; auto|]. destruct (vlt k0 k); [destruct H as [H|H]; [right; now left|]; destruct (IH _ _ _ H); [auto|right; now right]|]. destruct H as [H|H]; [auto|right; now right].
Qed.
Lemma mset_sorted : forall m k v, sorted m -> sorted (mset k v m).
Proof.
  induction m as [|[k0 v0] m IH]; intros k v H; cbn [mset]; [repeat constructor|]. inversion H as [|? ? H' F]; subst. destruct (vlt k k0) eqn:A.
  - constructor; [exact H|]. constructor; [exact A|]. eapply Forall_impl; [|exact F]. intros [k1 v1] B. cbn [fst] in *. now apply (vlt_trans k k0 k1).
  - destruct (vlt k0 k) eqn:B.
    + constructor; [now apply IH|]. apply Forall_forall. intros p Hp. destruct (mset_keys _ _ _ _ Hp) as [->|Q]; [exact B|]. rewrite Forall_forall in F. now apply F.
    + constructor; [exact H'|]. assert (k = k0) as -> by now apply vlt_total. exact F.
Qed.
Lemma mget_in : forall m k v, sorted m -> (In (k, v) m <-> mget k m = Some v).
Proof.
  induction m as [|[k0 v0] m IH]; intros k v H; [split; [intros []|discriminate]|]. inversion H as [|? ? H' F]; subst. rewrite mget_eq. split.
  - intros [E|I1]; [injection E as -> ->; destruct (ids_dec k k); [reflexivity|contradiction]|]. destruct (ids_dec k k0) as [->|_]; [|now apply IH]. rewrite Forall_forall in F. specialize (F _ I1). cbn [fst] in F. now rewrite vlt_irrefl in F.
  - destruct (ids_dec k k0) as [->|_]; intros E; [injection E as ->; now left|right; now apply IH].
Qed.
Lemma sorted_keys : forall m, sorted m -> NoDup (map fst m).
Proof.
  induction m as [|[k0 v0] m IH]; intros H; [constructor|]. inversion H as [|? ? H' F]; subst. cbn [map fst]. constructor; [|now apply IH]. intros I1. apply in_map_iff in I1 as (p & E & I1). rewrite Forall_forall in F. specialize (F _ I1). cbn [fst] in F. rewrite E, vlt_irrefl in F. discriminate.
Qed.
(** ** vocabularies *)
Fixpoint known (ws : list str) (v : list str) : option (list nat) :=
  match ws with [] => Some [] | w :: r => match index_of w v, known r v with Some i, Some is => Some (i :: is) | _, _ => None end end.
Definition valid (is : list nat) (v : list str) : Prop := Forall (fun i => i < length v) is.
Lemma index_some : forall v w i, index_of w v = Some i -> nth_error v i = Some w /\ i < length v.
Proof.
  induction v as [|x v IH]; intros w i H; [discriminate|]. cbn [index_of] in H. destruct (str_dec w x) as [->|N]; [injection H as <-; split; [reflexivity|cbn; lia]|]. destruct (index_of w v) as [j|] eqn:E; [|discriminate]. injection H as <-. destruct (IH _ _ E). split; [assumption|cbn; lia].
Qed.
Lemma index_none : forall v w, index_of w v = None -> ~ In w v.
Proof. induction v as [|x v IH]; intros w H; [intros []|]. cbn [index_of] in H. destruct (str_dec w x) as [->|N]; [discriminate|]. destruct (index_of w v) eqn:E; [discriminate|]. intros [A|A]; [congruence|]. now apply (IH w). Qed.
Lemma index_app : forall v x w i, index_of w v = Some i -> index_of w (v ++ x) = Some i.
Proof. induction v as [|y v IH]; intros x w i H; [discriminate|]. cbn [app index_of] in *. destruct (str_dec w y); [exact H|]. destruct (index_of w v) as [j|] eqn:E; [|discriminate]. now rewrite (IH x w j). Qed.
Lemma index_last : forall v w, ~ In w v -> index_of w (v ++ [w]) = Some (length v).
Proof. induction v as [|y v IH]; intros w H; cbn [app index_of length]; [destruct (str_dec w w); [reflexivity|contradiction]|]. destruct (str_dec w y) as [->|N]; [exfalso; apply H; now left|]. rewrite IH; [reflexivity|]. intros X. apply H. now right. Qed.
Lemma index_nth : forall v i w, NoDup v -> nth_error v i = Some w -> index_of w v = Some i.
Proof.
  induction v as [|y v IH]; intros i w D H; [destruct i; discriminate|]. inversion D as [|? ? NI D']; subst. destruct i as [|i]; cbn [nth_error] in H; cbn [index_of].
  - injection H as ->. destruct (str_dec w w); [reflexivity|contradiction].
  - destruct (str_dec w y) as [->|N]; [exfalso; apply NI; eapply nth_error_In; exact H|]. now rewrite (IH i w).
Qed.
Lemma known_app : forall ws v x is, known ws v = Some is -> known ws (v ++ x) = Some is.
Proof.
  induction ws as [|w ws IH]; intros v x is H; [exact H|]. cbn [known] in *. destruct (index_of w v) as [i|] eqn:E; [|discriminate]. destruct (known ws v) as [js|] eqn:K; [|discriminate]. rewrite (index_app _ x _ _ E), (IH _ x _ K). exact H.
Qed.
Lemma known_decode : forall ws v is, known ws v = Some is -> decode is v = ws /\ valid is v.
Proof.
  induction ws as [|w ws IH]; intros v is H; cbn [known] in H; [injection H as <-; split; [reflexivity|constructor]|]. destruct (index_of w v) as [i|] eqn:E; [|discriminate]. destruct (known ws v) as [js|] eqn:K; [|discriminate]. injection H as <-.
  destruct (index_some _ _ _ E) as [N L]. destruct (IH _ _ K) as [D V]. cbn [decode]. rewrite N, D. split; [reflexivity|now constructor].
Qed.
Lemma decode_known : forall is v, NoDup v -> valid is v -> known (decode is v) v = Some is.
Proof.
  induction is as [|i is IH]; intros v D V; [reflexivity|]. inversion V as [|? ? L V']; subst. cbn [decode]. destruct (nth_error v i) as [w|] eqn:E; [|apply nth_error_None in E; lia]. cbn [known]. now rewrite (index_nth _ _ _ D E), IH.
Qed.
Lemma known_ext_new : forall ws v x is, NoDup (v ++ x) -> known ws (v ++ x) = Some is -> valid is v -> known ws v = Some is.
Proof.
  induction ws as [|w ws IH]; intros v x is D H V; cbn [known] in *; [exact H|]. destruct (index_of w (v ++ x)) as [i|] eqn:E; [|discriminate]. destruct (known ws (v ++ x)) as [js|] eqn:K; [|discriminate]. injection H as <-. inversion V as [|? ? L V']; subst.
  rewrite (IH v x js D K V'). destruct (index_some _ _ _ E) as [N _]. rewrite nth_error_app1 in N by exact L. rewrite (index_nth v i w); [reflexivity| |exact N]. clear - D. induction v as [|y v IHv]; [constructor|]. inversion D as [|? ? NI D']; subst. constructor; [|now apply IHv]. intros X. apply NI, in_or_app. now left.
Qed.
Lemma decode_app : forall is v x, valid is v -> decode is (v ++ x) = decode is v /\ valid is (v ++ x).
Proof.
  induction is as [|i is IH]; intros v x V; [split; [reflexivity|constructor]|]. inversion V as [|? ? L V']; subst. destruct (IH v x V') as [A B]. cbn [decode]. rewrite nth_error_app1 by exact L. rewrite A. split; [reflexivity|]. constructor; [rewrite app_length; lia|exact B].
Qed.
Lemma encode_ok : forall ws v is v', NoDup v -> encode ws v = (is, v') -> NoDup v' /\ (exists x, v' = v ++ x) /\ known ws v' = Some is.
Proof.
  induction ws as [|w ws IH]; intros v is v' D H; cbn [encode] in H; [injection H as <- <-; split; [exact D|]; split; [exists []; now rewrite app_nil_r|reflexivity]|].
  destruct (index_of w v) as [i|] eqn:E.
  - destruct (encode ws v) as [js v1] eqn:R. injection H as <- <-. destruct (IH _ _ _ D R) as (D' & (x & ->) & K). split; [exact D'|]. split; [now exists x|]. cbn [known]. now rewrite (index_app _ x _ _ E), K.
  - destruct (encode ws (v ++ [w])) as [js v1] eqn:R. injection H as <- <-. pose proof (index_none _ _ E) as NI.
    assert (D1 : NoDup (v ++ [w])). { apply NoDup_rev in D. rewrite <- (rev_involutive (v ++ [w])). apply NoDup_rev. rewrite rev_app_distr. cbn. constructor; [|exact D]. now rewrite <- in_rev. }
    destruct (IH _ _ _ D1 R) as (D' & (x & ->) & K). split; [exact D'|]. split; [exists ([w] ++ x); now rewrite app_assoc|]. cbn [known]. rewrite (index_app _ x w (length v)) by now apply index_last. now rewrite K.
Qed.
(** ** lookups by words *)
Fixpoint vget (s : list nat) (v : list info) : option (wam * nat) := match v with [] => None | i :: r => if ids_dec (i_s i) s then Some (i_al i, i_n i) else vget s r end.
Definition sget (t : list str) (tv : list str) (m : list (list nat * list info)) : option (list info) := match known t tv with None => None | Some k => mget k m end.
Definition svget (s : list str) (sv : list str) (v : list info) : option (wam * nat) := match known s sv with None => None | Some k => vget k v end.
Definition slook (c : cont) (p : list str * list str) : option (wam * nat) := match sget (snd p) (c_tv c) (c_map c) with None => None | Some v => svget (fst p) (c_sv c) v end.
Definition vec_ok (sv : list str) (v : list info) : Prop := NoDup (map i_s v) /\ Forall (fun i => valid (i_s i) sv) v.
Definition inv (c : cont) : Prop :=
  NoDup (c_tv c) /\ NoDup (c_sv c) /\ sorted (c_map c) /\ Forall (fun p => valid (fst p) (c_tv c) /\ vec_ok (c_sv c) (snd p)) (c_map c).
Lemma NoDup_appl : forall (A : Type) (a b : list A), NoDup (a ++ b) -> NoDup a.
Proof. induction a as [|y v IHv]; intros b D; [constructor|]. inversion D as [|? ? NI D']; subst. constructor; [|now apply (IHv b)]. intros X. apply NI, in_or_app. now left. Qed.
Lemma mget_valid : forall m k v P, Forall (fun p : list nat * list info => P (fst p) (snd p)) m -> mget k m = Some v -> P k v.
Proof. induction m as [|[k0 v0] m IH]; intros k v P F H; [discriminate|]. inversion F; subst. rewrite mget_eq in H. destruct (ids_dec k k0) as [->|_]; [injection H as <-; assumption|now apply IH]. Qed.
Lemma sget_ext : forall t tv x m, NoDup (tv ++ x) -> Forall (fun p : list nat * list info => valid (fst p) tv) m -> sget t (tv ++ x) m = sget t tv m.
Proof.
  intros t tv x m D F. unfold sget. destruct (known t tv) as [k|] eqn:E; [now rewrite (known_app _ _ x _ E)|]. destruct (known t (tv ++ x)) as [k|] eqn:E2; [|reflexivity]. destruct (mget k m) as [v|] eqn:G; [|reflexivity]. exfalso.
  pose proof (mget_valid m k v (fun k _ => valid k tv) F G) as V. cbn in V. rewrite (known_ext_new t tv x k D E2 V) in E. discriminate.
Qed.
Lemma vget_valid : forall v s y P, Forall (fun i => P (i_s i)) v -> vget s v = Some y -> P s.
Proof. induction v as [|i v IH]; intros s y P F H; [discriminate|]. inversion F; subst. cbn [vget] in H. destruct (ids_dec (i_s i) s) as [<-|_]; [assumption|now apply (IH s y P)]. Qed.
Lemma svget_ext : forall s sv x v, NoDup (sv ++ x) -> Forall (fun i => valid (i_s i) sv) v -> svget s (sv ++ x) v = svget s sv v.
Proof.
  intros s sv x v D F. unfold svget. destruct (known s sv) as [k|] eqn:E; [now rewrite (known_app _ _ x _ E)|]. destruct (known s (sv ++ x)) as [k|] eqn:E2; [|reflexivity]. destruct (vget k v) as [y|] eqn:G; [|reflexivity]. exfalso.
  pose proof (vget_valid v k y (fun k => valid k sv) F G) as V. cbn in V. rewrite (known_ext_new s sv x k D E2 V) in E. discriminate.
Qed.
Lemma valid_app : forall k v x, valid k v -> valid k (v ++ x). Proof. intros k v x V. now apply decode_app. Qed.
Lemma known_inj : forall a b v k, known a v = Some k -> known b v = Some k -> a = b.
Proof. intros a b v k A B. destruct (known_decode _ _ _ A) as [X _]. destruct (known_decode _ _ _ B) as [Y _]. congruence. Qed.
Lemma sget_mset : forall t t' tv m k v, known t tv = Some k -> sget t' tv (mset k v m) = if strs_eq t' t then Some v else sget t' tv m.
Proof.
  intros t t' tv m k v K. unfold sget. destruct (strs_eq t' t) as [->|N]; [rewrite K, mget_mset; destruct (ids_dec k k); [reflexivity|contradiction]|]. destruct (known t' tv) as [k'|] eqn:E; [|reflexivity]. rewrite mget_mset.
  destruct (ids_dec k' k) as [->|_]; [|reflexivity]. exfalso. apply N. eapply known_inj; eassumption.
Qed.
Lemma vget_bump : forall v s al s', vget s' (bump s al v) = if ids_dec s s' then match vget s v with Some (a, n) => Some (a, S n) | None => Some (al, 1) end else vget s' v.
Proof.
  induction v as [|i v IH]; intros s al s'; cbn [bump vget]; [reflexivity|]. destruct (ids_dec (i_s i) s) as [E|N]; cbn [vget i_s i_al i_n].
  - rewrite E. destruct (ids_dec s s'); reflexivity.
  - rewrite IH. destruct (ids_dec (i_s i) s') as [E'|N']; [|reflexivity]. destruct (ids_dec s s'); [congruence|reflexivity].
Qed.
Lemma svget_of : forall s s' sv k (f : option (wam * nat) -> option (wam * nat)) v v', known s sv = Some k ->
  (forall k', vget k' v' = if ids_dec k k' then f (vget k v) else vget k' v) -> svget s' sv v' = if strs_eq s' s then f (svget s sv v) else svget s' sv v.
Proof.
  intros s s' sv k f v v' K H. unfold svget. destruct (strs_eq s' s) as [->|N]; [rewrite K, H; destruct (ids_dec k k); [reflexivity|contradiction]|]. destruct (known s' sv) as [k'|] eqn:E; [|reflexivity]. rewrite H.
  destruct (ids_dec k k') as [<-|_]; [|reflexivity]. exfalso. apply N. eapply known_inj; eassumption.
Qed.
Lemma bump_ok : forall sv s al v, valid s sv -> vec_ok sv v -> vec_ok sv (bump s al v).
Proof.
  intros sv s al v VS [D F]. assert (M : forall x, In x (map i_s (bump s al v)) -> x = s \/ In x (map i_s v)).
  { clear. induction v as [|i v IH]; intros x H; cbn [bump] in H; [destruct H as [H|[]]; auto|]. destruct (ids_dec (i_s i) s) as [E|N]; cbn [map i_s] in *; [right; exact H|]. destruct H as [H|H]; [right; now left|]. destruct (IH x H); [auto|right; now right]. }
  split.
  - clear - D. induction v as [|i v IH]; cbn [bump]; [repeat constructor; intros []|]. inversion D as [|? ? NI D']; subst. destruct (ids_dec (i_s i) s) as [E|N]; cbn [map i_s]; [now constructor|]. constructor; [|now apply IH].
    intros H. assert (X : i_s i = s \/ In (i_s i) (map i_s v)); [|destruct X; contradiction]. clear - H. induction v as [|j v IH]; cbn [bump] in H; [destruct H as [H|[]]; auto|]. destruct (ids_dec (i_s j) s); cbn [map i_s] in *; [right; exact H|]. destruct H as [H|H]; [right; now left|]. destruct (IH H); [auto|right; now right].
  - clear - F VS. induction F as [|i v V F IH]; cbn [bump]; [constructor; [exact VS|constructor]|]. destruct (ids_dec (i_s i) s); constructor; auto.
Qed.
Lemma vec_ok_app : forall sv x v, vec_ok sv v -> vec_ok (sv ++ x) v.
Proof. intros sv x v [D F]. split; [exact D|]. eapply Forall_impl; [|exact F]. intros i. apply valid_app. Qed.
Lemma inv_ext : forall c x y, inv c -> NoDup (c_tv c ++ x) -> NoDup (c_sv c ++ y) -> inv (mkcont (c_map c) (c_tv c ++ x) (c_sv c ++ y)).
Proof.
  intros c x y (D1 & D2 & SO & F) E1 E2. split; [exact E1|]. split; [exact E2|]. split; [exact SO|]. eapply Forall_impl; [|exact F]. intros p [A B]. split; [now apply valid_app|now apply vec_ok_app].
Qed.
Lemma inv_mset : forall c k v, inv c -> valid k (c_tv c) -> vec_ok (c_sv c) v -> inv (mkcont (mset k v (c_map c)) (c_tv c) (c_sv c)).
Proof.
  intros c k v (D1 & D2 & SO & F) VK VV. split; [exact D1|]. split; [exact D2|]. split; [now apply mset_sorted|]. apply Forall_forall. intros p H. destruct (mset_keys _ _ _ _ H) as [->|Q]; [split; assumption|]. rewrite Forall_forall in F. now apply F.
Qed.
Lemma slook_ext : forall c x y p, inv c -> NoDup (c_tv c ++ x) -> NoDup (c_sv c ++ y) -> slook (mkcont (c_map c) (c_tv c ++ x) (c_sv c ++ y)) p = slook c p.
Proof.
  intros c x y p (D1 & D2 & SO & F) E1 E2. unfold slook. cbn [c_map c_tv c_sv]. rewrite sget_ext; [|exact E1|eapply Forall_impl; [|exact F]; intros q [A _]; exact A].
  destruct (sget (snd p) (c_tv c) (c_map c)) as [v|] eqn:G; [|reflexivity]. unfold sget in G. destruct (known (snd p) (c_tv c)) as [k|]; [|discriminate]. apply (mget_valid _ _ _ (fun k v => valid k (c_tv c) /\ vec_ok (c_sv c) v) F) in G. destruct G as [_ [_ G]]. now apply svget_ext.
Qed.
Lemma pair_split : forall (p : list str * list str) e, same_pair p e = (if strs_eq (snd p) (e_t e) then true else false) && (if strs_eq (fst p) (e_ns e) then true else false).
Proof.
  intros [a b] e. unfold same_pair, pair_of. cbn [fst snd]. destruct (pair_eq (a, b) (e_ns e, e_t e)) as [E|N]; [injection E as -> ->|].
  - destruct (strs_eq (e_t e) (e_t e)); [|contradiction]. destruct (strs_eq (e_ns e) (e_ns e)); [reflexivity|contradiction].
  - destruct (strs_eq b (e_t e)) as [->|]; [|reflexivity]. destruct (strs_eq a (e_ns e)) as [->|]; [contradiction|reflexivity].
Qed.
(** what store does *)
Lemma store_ok : forall c e, inv c -> inv (store c e) /\ forall p, slook (store c e) p =
  if same_pair p e then match slook c p with Some (a, n) => Some (a, S n) | None => Some (e_al e, 1) end else slook c p.
Proof.
  intros c e I0. pose proof I0 as (D1 & D2 & SO & F). unfold store. destruct (encode (e_t e) (c_tv c)) as [tid tv] eqn:ET. destruct (encode (e_ns e) (c_sv c)) as [sid sv] eqn:ES.
  destruct (encode_ok _ _ _ _ D1 ET) as (E1 & (x & ->) & KT). destruct (encode_ok _ _ _ _ D2 ES) as (E2 & (y & ->) & KS).
  pose proof (inv_ext c x y I0 E1 E2) as I1. set (c1 := mkcont (c_map c) (c_tv c ++ x) (c_sv c ++ y)) in *.
  destruct (known_decode _ _ _ KT) as [_ VT]. destruct (known_decode _ _ _ KS) as [_ VS].
  assert (LK : forall p, slook c1 p = slook c p) by (intros p; now apply slook_ext).
  destruct (mget tid (c_map c)) as [v|] eqn:G.
  - assert (VO : vec_ok (c_sv c1) v) by (destruct I1 as (_ & _ & _ & F1); apply (mget_valid _ _ _ (fun k v => valid k (c_tv c1) /\ vec_ok (c_sv c1) v) F1 G)).
    split; [apply (inv_mset c1); [exact I1|exact VT|now apply bump_ok]|]. intros p. rewrite <- !LK. rewrite pair_split. unfold slook. cbn [c_map c_tv c_sv c1]. rewrite (sget_mset (e_t e)) by exact KT.
    destruct (strs_eq (snd p) (e_t e)) as [EQ|NQ]; cbn [andb]; [|reflexivity]. rewrite EQ. assert (SG : sget (e_t e) (c_tv c ++ x) (c_map c) = Some v) by (unfold sget; rewrite KT; exact G). rewrite SG.
    rewrite (svget_of (e_ns e) (fst p) (c_sv c ++ y) sid (fun o => match o with Some (a, n) => Some (a, S n) | None => Some (e_al e, 1) end) v _ KS) by (intros k'; apply vget_bump).
    destruct (strs_eq (fst p) (e_ns e)) as [->|]; reflexivity.
  - split; [apply (inv_mset c1); [exact I1|exact VT|split; [repeat constructor; intros []|constructor; [exact VS|constructor]]]|]. intros p. rewrite <- !LK. rewrite pair_split. unfold slook. cbn [c_map c_tv c_sv c1]. rewrite (sget_mset (e_t e)) by exact KT.
    destruct (strs_eq (snd p) (e_t e)) as [EQ|NQ]; cbn [andb]; [|reflexivity]. rewrite EQ. assert (SG : sget (e_t e) (c_tv c ++ x) (c_map c) = None) by (unfold sget; rewrite KT; exact G). rewrite SG.
    unfold svget. destruct (strs_eq (fst p) (e_ns e)) as [->|N]; [rewrite KS; cbn [vget i_s i_al i_n]; destruct (ids_dec sid sid); [reflexivity|contradiction]|]. destruct (known (fst p) (c_sv c ++ y)) as [k'|] eqn:K'; [|reflexivity]. cbn [vget i_s]. destruct (ids_dec sid k') as [<-|_]; [|reflexivity]. exfalso. apply N. eapply known_inj; eassumption.
Qed.
Lemma stores_ok : forall es c, inv c -> inv (fold_left store es c) /\ forall p, slook (fold_left store es c) p =
  match slook c p with Some (a, n) => Some (a, n + occurrences p es) | None => match find (same_pair p) es with Some e => Some (e_al e, occurrences p es) | None => None end end.
Proof.
  induction es as [|e es IH]; intros c I0.
  - split; [exact I0|]. intros p. cbn [fold_left find]. destruct (slook c p) as [[a n]|]; [|reflexivity]. cbn. now rewrite Nat.add_0_r.
  - cbn [fold_left]. destruct (store_ok c e I0) as [I1 L]. destruct (IH _ I1) as [I2 L2]. split; [exact I2|]. intros p. rewrite L2, L. unfold occurrences. cbn [find filter]. destruct (same_pair p e); [|reflexivity]. destruct (slook c p) as [[a n]|]; cbn [length]; do 2 f_equal; lia.
Qed.
(** what an operation does *)
Definition opf (o : aop) (m w : wam) : wam := match apply_op o m w with Some r => r | None => m end.
Lemma opf_ok : forall o m w, apply_op o m w = Some (opf o m w).
Proof. intros o m w. unfold opf. destruct (apply_op_ok o m w) as (r & E & _). now rewrite E. Qed.
Definition upd (o : aop) (al : wam) (x : option (wam * nat)) : option (wam * nat) := match x with Some (a, n) => Some (opf o a al, n) | None => None end.
Lemma op_infos_ok : forall o s al v, NoDup (map i_s v) -> exists v', op_infos o s al v = Some v' /\ map i_s v' = map i_s v /\ forall s', vget s' v' = if ids_dec s s' then upd o al (vget s v) else vget s' v.
Proof.
  intros o s al. induction v as [|i v IH]; intros D; [exists []; split; [reflexivity|]; split; [reflexivity|]; intros s'; cbn; destruct (ids_dec s s'); reflexivity|]. inversion D as [|? ? NI D']; subst. destruct (IH D') as (v' & E & M & L). cbn [op_infos]. rewrite E.
  destruct (ids_dec s (i_s i)) as [EQ|N].
  - rewrite opf_ok. eexists. split; [reflexivity|]. split; [cbn [map i_s]; now rewrite M|]. intros s'. cbn [vget i_s i_al i_n]. rewrite <- EQ. destruct (ids_dec s s') as [<-|N']; [|]. + destruct (ids_dec s s); [reflexivity|contradiction].
    + rewrite L. destruct (ids_dec s s'); [contradiction|reflexivity].
  - exists (i :: v'). split; [reflexivity|]. split; [cbn [map]; now rewrite M|]. intros s'. cbn [vget]. rewrite L. destruct (ids_dec (i_s i) s) as [X|_]; [congruence|]. destruct (ids_dec (i_s i) s') as [E2|N2]; [|reflexivity]. destruct (ids_dec s s'); [congruence|reflexivity].
Qed.
Lemma op_entry_ok : forall o c e, inv c -> exists c', op_entry o (Some c) e = Some c' /\ inv c' /\ forall p, slook c' p = if same_pair p e then upd o (e_al e) (slook c p) else slook c p.
Proof.
  intros o c e I0. pose proof I0 as (D1 & D2 & SO & F). unfold op_entry. destruct (encode (e_t e) (c_tv c)) as [tid tv] eqn:ET. destruct (encode_ok _ _ _ _ D1 ET) as (E1 & (x & ->) & KT). destruct (known_decode _ _ _ KT) as [_ VT].
  assert (NS : NoDup (c_sv c ++ [])) by now rewrite app_nil_r. pose proof (inv_ext c x [] I0 E1 NS) as I1. pose proof (fun p => slook_ext c x [] p I0 E1 NS) as LK. rewrite app_nil_r in I1, LK.
  assert (MISS : (forall y, mget tid (c_map c) = Some y -> y = []) -> forall p, slook (mkcont (c_map c) (c_tv c ++ x) (c_sv c)) p = if same_pair p e then upd o (e_al e) (slook c p) else slook c p).
  { intros G p. rewrite <- (LK p). rewrite pair_split. destruct (strs_eq (snd p) (e_t e)) as [EQ|]; cbn [andb]; [|reflexivity]. unfold slook. cbn [c_map c_tv c_sv]. unfold sget. rewrite EQ, KT. destruct (mget tid (c_map c)) as [y|]; [|destruct (strs_eq _ _); reflexivity]. rewrite (G y eq_refl). unfold svget. cbn [vget]. destruct (known (fst p) (c_sv c)); destruct (strs_eq (fst p) (e_ns e)); reflexivity. }
  destruct (mget tid (c_map c)) as [[|i v]|] eqn:G.
  - eexists. split; [reflexivity|]. split; [exact I1|]. apply MISS. intros y H. now injection H as <-.
  - clear MISS. set (v0 := i :: v) in *. destruct (encode (e_ns e) (c_sv c)) as [sid sv] eqn:ES. destruct (encode_ok _ _ _ _ D2 ES) as (E2 & (y & ->) & KS). destruct (known_decode _ _ _ KS) as [_ VS].
    clear I1 LK. pose proof (inv_ext c x y I0 E1 E2) as I1. set (c1 := mkcont (c_map c) (c_tv c ++ x) (c_sv c ++ y)) in *. assert (LK : forall p, slook c1 p = slook c p) by (intros p; now apply slook_ext).
    assert (VO : vec_ok (c_sv c1) v0) by (destruct I1 as (_ & _ & _ & F1); apply (mget_valid _ _ _ (fun k v => valid k (c_tv c1) /\ vec_ok (c_sv c1) v) F1 G)).
    destruct (op_infos_ok o sid (e_al e) v0 (proj1 VO)) as (v' & EV & MV & LV). rewrite EV. eexists. split; [reflexivity|]. split.
    { apply (inv_mset c1); [exact I1|exact VT|]. destruct VO as [VD VF]. split; [now rewrite MV|]. apply Forall_forall. intros j Hj. assert (X : In (i_s j) (map i_s v0)) by (rewrite <- MV; now apply in_map). apply in_map_iff in X as (j0 & <- & J0). rewrite Forall_forall in VF. now apply VF. }
    intros p. rewrite <- !LK. rewrite pair_split. unfold slook. cbn [c_map c_tv c_sv c1]. rewrite (sget_mset (e_t e)) by exact KT. destruct (strs_eq (snd p) (e_t e)) as [EQ|NQ]; cbn [andb]; [|reflexivity]. rewrite EQ.
    assert (SG : sget (e_t e) (c_tv c ++ x) (c_map c) = Some v0) by (unfold sget; rewrite KT; exact G). rewrite SG.
    rewrite (svget_of (e_ns e) (fst p) (c_sv c ++ y) sid (upd o (e_al e)) v0 _ KS) by exact LV. destruct (strs_eq (fst p) (e_ns e)) as [->|]; reflexivity.
  - eexists. split; [reflexivity|]. split; [exact I1|]. apply MISS. discriminate.
Qed.
Definition runf (l : list (aop * wam)) (a : wam) : wam := fold_left (fun a q => opf (fst q) a (snd q)) l a.
Definition upds (l : list (aop * wam)) (x : option (wam * nat)) : option (wam * nat) := match x with Some (a, n) => Some (runf l a, n) | None => None end.
Lemma op_entries_ok : forall o es c, inv c -> exists c', fold_left (op_entry o) es (Some c) = Some c' /\ inv c' /\ forall p, slook c' p = upds (operands p [(o, es)]) (slook c p).
Proof.
  intros o es. induction es as [|e es IH]; intros c I0.
  - exists c. split; [reflexivity|]. split; [exact I0|]. intros p. cbn. destruct (slook c p) as [[a n]|]; reflexivity.
  - cbn [fold_left]. destruct (op_entry_ok o c e I0) as (c1 & E1 & I1 & L1). rewrite E1. destruct (IH c1 I1) as (c2 & E2 & I2 & L2). exists c2. split; [exact E2|]. split; [exact I2|]. intros p. rewrite L2, L1. unfold operands. cbn [flat_map fst snd filter]. rewrite !app_nil_r. destruct (same_pair p e); [|reflexivity]. destruct (slook c p) as [[a n]|]; reflexivity.
Qed.
(** the entries of the files of the calls *)
Definition files_of (qs : list ccall) (gs : list (list entry)) : Prop := Forall2 (fun (q : ccall) g => read_giza (snd q) = Some g) qs gs.
Definition ops_of (qs : list ccall) (gs : list (list entry)) : list (aop * list entry) := map (fun x => (fst (fst (fst x)), map (turn (snd (fst (fst x)))) (snd x))) (combine qs gs).
Lemma cont_ops_ok : forall qs gs c, inv c -> files_of qs gs -> exists c', cont_ops qs (Some c) = Some c' /\ inv c' /\ forall p, slook c' p = upds (operands p (ops_of qs gs)) (slook c p).
Proof.
  induction qs as [|[[o tr] f] qs IH]; intros gs c I0 F; inversion F as [|? g ? gs' R F']; subst.
  - exists c. split; [reflexivity|]. split; [exact I0|]. intros p. cbn. destruct (slook c p) as [[a n]|]; reflexivity.
  - cbn [snd] in R. unfold cont_ops. cbn [fold_left cont_op]. rewrite R. destruct (op_entries_ok o (map (turn tr) g) c I0) as (c1 & E1 & I1 & L1). rewrite E1. destruct (IH gs' c1 I1 F') as (c2 & E2 & I2 & L2). exists c2. split; [exact E2|]. split; [exact I2|].
    intros p. rewrite L2, L1. cbn [ops_of combine map fst snd]. unfold operands. cbn [flat_map fst snd]. rewrite app_nil_r. destruct (slook c p) as [[a n]|]; [|reflexivity]. cbn [upds]. unfold runf. now rewrite fold_left_app.
Qed.
(** ** printing *)
Lemma vget_in : forall v i, NoDup (map i_s v) -> In i v -> vget (i_s i) v = Some (i_al i, i_n i).
Proof.
  induction v as [|j v IH]; intros i D H; [destruct H|]. inversion D as [|? ? NI D']; subst. cbn [vget]. destruct H as [->|H]; [destruct (ids_dec (i_s i) (i_s i)); [reflexivity|contradiction]|]. destruct (ids_dec (i_s j) (i_s i)) as [E|_]; [exfalso; apply NI; rewrite E; now apply in_map|now apply IH].
Qed.
Lemma vget_out : forall v s a n, vget s v = Some (a, n) -> In (mkinfo s a n) v.
Proof. induction v as [|j v IH]; intros s a n H; [discriminate|]. cbn [vget] in H. destruct (ids_dec (i_s j) s) as [<-|_]; [injection H as <- <-; left; now destruct j|right; now apply IH]. Qed.
Definition entry_of (p : list str * list str) (a : wam) : entry := mkent (fst p) (snd p) a 0.
Lemma compact_in : forall c h e, inv c -> (In (h, e) (compact_entries c) <-> exists p a n, slook c p = Some (a, n) /\ h = T "# " ++ dec n /\ e = entry_of p a).
Proof.
  intros c h e (D1 & D2 & SO & F). unfold compact_entries. rewrite in_flat_map. split.
  - intros ([k v] & I1 & H). apply in_map_iff in H as (i & E & I2). cbn [fst snd] in *. injection E as <- <-. rewrite Forall_forall in F. destruct (F _ I1) as [VK [VD VF]]. cbn [fst snd] in *. rewrite Forall_forall in VF. specialize (VF _ I2).
    exists (decode (i_s i) (c_sv c), decode k (c_tv c)), (i_al i), (i_n i). split; [|now split]. unfold slook, sget, svget. cbn [fst snd]. rewrite decode_known by assumption. rewrite (proj1 (mget_in _ _ _ SO) I1). rewrite decode_known by assumption. now apply vget_in.
  - intros ([s t] & a & n & L & -> & ->). unfold slook, sget, svget in L. cbn [fst snd] in L. destruct (known t (c_tv c)) as [k|] eqn:KT; [|discriminate]. destruct (mget k (c_map c)) as [v|] eqn:G; [|discriminate]. destruct (known s (c_sv c)) as [ks|] eqn:KS; [|discriminate].
    exists (k, v). split; [now apply mget_in|]. apply in_map_iff. exists (mkinfo ks a n). cbn [fst snd i_s i_al i_n]. split; [|now apply vget_out]. destruct (known_decode _ _ _ KT) as [-> _]. destruct (known_decode _ _ _ KS) as [-> _]. reflexivity.
Qed.
Lemma nodup_app : forall (A : Type) (a b : list A), NoDup a -> NoDup b -> (forall x, In x a -> ~ In x b) -> NoDup (a ++ b).
Proof.
  induction a as [|x a IH]; intros b DA DB H; [exact DB|]. inversion DA as [|? ? NI DA']; subst. cbn [app]. constructor; [|apply IH; auto; intros y Hy; apply H; now right]. intros X. apply in_app_or in X. destruct X as [X|X]; [contradiction|]. apply (H x); [now left|exact X].
Qed.
Definition infos_entries (c : cont) (k : list nat) (v : list info) : list (str * entry) := map (fun i => (T "# " ++ dec (i_n i), mkent (decode (i_s i) (c_sv c)) (decode k (c_tv c)) (i_al i) 0)) v.
Lemma compact_nodup : forall c, inv c -> NoDup (map (fun x => pair_of (snd x)) (compact_entries c)).
Proof.
  intros c (D1 & D2 & SO & F). unfold compact_entries. apply sorted_keys in SO. induction (c_map c) as [|[k v] m IH]; [constructor|]. inversion SO as [|? ? NI SO']; subst. inversion F as [|? ? FV F']; subst. cbn [fst snd] in *. destruct FV as [VK [VD VF]]. cbn [flat_map fst snd]. rewrite map_app. apply nodup_app; [|now apply IH|].
  - rewrite map_map. clear - VD VF D2. induction v as [|i v IHv]; [constructor|]. inversion VD as [|? ? NI VD']; subst. inversion VF as [|? ? VI VF']; subst. cbn [map snd]. constructor; [|now apply IHv]. intros H. apply in_map_iff in H as (j & E & J). unfold pair_of in E. cbn [snd e_ns e_t] in E. injection E as E. apply NI. apply in_map_iff. exists j. split; [|exact J]. rewrite Forall_forall in VF'. specialize (VF' _ J).
    pose proof (decode_known _ _ D2 VF') as X. pose proof (decode_known _ _ D2 VI) as Y. rewrite E in X. congruence.
  - intros q Hq Hq2. apply in_map_iff in Hq as (x & Ex & Hx). apply in_map_iff in Hx as (i & <- & Hi). apply in_map_iff in Hq2 as (x2 & Ex2 & Hx2). apply in_flat_map in Hx2 as ([k2 v2] & M2 & Hx2). apply in_map_iff in Hx2 as (i2 & <- & Hi2). subst q. unfold pair_of in Ex2. cbn [snd fst e_ns e_t] in Ex2. injection Ex2 as _ E. apply NI.
    rewrite Forall_forall in F'. destruct (F' _ M2) as [VK2 _]. cbn [fst] in VK2. pose proof (decode_known _ _ D1 VK) as X. pose proof (decode_known _ _ D1 VK2) as Y. rewrite E, X in Y. injection Y as ->. now apply (in_map fst) in M2.
Qed.
(** reading what a container prints *)
Definition hlines (x : str * entry) : list str := [fst x; words_text (e_t (snd x)); line_of (items_of (e_ns (snd x)) (e_al (snd x)))].
Definition hgood (x : str * entry) (q : Q) : Prop := wf_entry (snd x) /\ good_line (fst x) /\ giza_header (fst x) (length (flds (fst x))) = Some (Some q).
Lemma next_h : forall x q y b rest, hgood x q -> nextGIZA y (mkstrm b (hlines x ++ rest)) = Some (true, mkent (e_ns (snd x)) (e_t (snd x)) (rd_al (snd x)) q, mkstrm (line_of (items_of (e_ns (snd x)) (e_al (snd x)))) rest).
Proof.
  intros [h e] q y b rest ((NE & PN & NO & PT & DI & DJ & SM & B) & _ & H). cbn [fst snd] in *. unfold nextGIZA, hlines. cbn [fst snd app GizaModel.getln s_rest negb s_buf]. rewrite !nfw. rewrite H.
  rewrite fields_from_ok by lia. cbn [skipn]. rewrite flds_words by exact PT.
  rewrite count_open_ok by lia. cbn [skipn]. pose proof (line_fields _ (items_clean (e_ns e) (e_al e) PN)) as LF. rewrite LF. rewrite count_items.
  2:{ apply Forall_forall. intros p Hp X. apply NO. rewrite <- X, <- (items_words (e_ns e) (e_al e)). now apply in_map. }
  assert (LI : length (items_of (e_ns e) (e_al e)) = length (e_ns e)) by (rewrite <- (items_words (e_ns e) (e_al e)) at 2; now rewrite map_length).
  rewrite LI. destruct (Nat.eqb_spec (length (e_ns e)) 0) as [Z|_]; [destruct (e_ns e); [contradiction|discriminate Z]|].
  rewrite <- LF. pose proof (items_pos (e_ns e) (e_al e)) as IP. rewrite DJ in IP.
  pose proof (rwl_ok (items_of (e_ns e) (e_al e)) (S (length (flds (line_of (items_of (e_ns e) (e_al e)))))) (line_of (items_of (e_ns e) (e_al e))) [] 0 (length (e_t e)) [] (AligModel.w_init (length (e_ns e) - 1) (length (e_t e))) LF IP SM) as R.
  cbn [length] in R. rewrite R; [cbn [app]; rewrite items_words; reflexivity|]. rewrite LF. clear. induction (items_of (e_ns e) (e_al e)) as [|p l IH]; cbn [map concat length]; [lia|]. rewrite app_length. unfold item_fields at 1. cbn [length]. lia.
Qed.
Lemma print_all_ok : forall l qs, Forall2 hgood l qs -> exists txt lc, print_all l = Some txt /\ read_giza txt = Some lc /\
  Forall2 (fun x c => e_ns c = e_ns (snd x) /\ e_t c = e_t (snd x) /\ wsame (e_al (snd x)) (e_al c)) l lc /\ map e_reps lc = qs.
Proof.
  intros l qs F. set (rdx := fun x : (str * entry) * Q => mkent (e_ns (snd (fst x))) (e_t (snd (fst x))) (rd_al (snd (fst x))) (snd x)).
  exists (file_of (concat (map hlines l))), (map rdx (combine l qs)). split; [|split; [|split]].
  - clear rdx. induction F as [|x q l qs H F IH]; [reflexivity|]. cbn [print_all map concat]. destruct x as [h e]. unfold printGIZA. destruct H as (W & _). cbn [snd] in W. rewrite giza_line_ok by now apply wf_len. rewrite IH. rewrite file_of_app. f_equal. f_equal. unfold file_of, hlines. cbn [fst snd map concat]. rewrite app_nil_r, <- !app_assoc. reflexivity.
  - unfold read_giza, s_open. rewrite read_lines_ok.
    + cbn [s_rest]. assert (G : forall fuel y b, length l < fuel -> read_all fuel y (mkstrm b (concat (map hlines l))) = Some (map rdx (combine l qs))).
      { induction F as [|x q l qs H F IH]; intros fuel y b L; (destruct fuel as [|f]; [cbn [length] in L; lia|]); cbn [read_all]; [reflexivity|]. cbn [map concat combine]. rewrite (next_h x q) by exact H. rewrite IH by (cbn [length] in L; lia). reflexivity. }
      apply G. clear. induction l as [|x l IH]; cbn [map concat length]; [lia|]. rewrite app_length. cbn [hlines length]. lia.
    + clear rdx. induction F as [|[h e] q l qs H F IH]; [constructor|]. cbn [map concat]. apply Forall_app. split; [|exact IH]. destruct H as ((NE & PN & NO & PT & _) & G & _). cbn [fst snd] in *. unfold hlines. cbn [fst snd]. constructor; [exact G|]. constructor; [now apply good_words|]. constructor; [|constructor]. apply line_good, items_clean, PN.
  - induction F as [|x q l qs H F IH]; [constructor|]. cbn [combine map]. constructor; [|exact IH]. cbn [rdx fst snd e_ns e_t e_al]. split; [reflexivity|]. split; [reflexivity|]. apply rd_same. apply H.
  - induction F as [|x q l qs H F IH]; [reflexivity|]. cbn [combine map]. now rewrite IH.
Qed.
(** ** what the extractor delivers is bounded *)
Lemma read_links_bnd : forall fuel buf NF i sp nt m r, bnd m -> read_links fuel buf NF i sp nt m = Some r -> match r with Stop m' => bnd m' | Go m' _ => bnd m' end.
Proof.
  induction fuel as [|f IH]; intros buf NF i sp nt m r B H; cbn [read_links] in H; [injection H as <-; exact B|]. destruct (i <=? NF); [|injection H as <-; exact B]. destruct (dollar SP buf i); [|discriminate]. destruct (str_dec _ _); [injection H as <-; exact B|]. destruct (atoi _); [|discriminate]. destruct (_ || _); [injection H as <-; exact B|].
  eapply IH; [|exact H]. destruct (_ && _ && _); [|exact B]. apply bnd_set; [exact B|]. apply N.mod_lt. discriminate.
Qed.
Lemma rwl_bnd : forall fuel buf NF i sp nt ns m ns' m', bnd m -> read_words_links fuel buf NF i sp nt ns m = Some (ns', m') -> bnd m'.
Proof.
  induction fuel as [|f IH]; intros buf NF i sp nt ns m ns' m' B H; cbn [read_words_links] in H; [injection H as _ <-; exact B|]. destruct (i <=? NF); [|injection H as _ <-; exact B]. destruct (dollar SP buf i); [|discriminate]. destruct (is_tok _ _); [|discriminate]. destruct (skip_to_open _ _ _ _); [|discriminate].
  destruct (read_links _ _ _ _ _ _ _) as [r|] eqn:E; [|discriminate]. pose proof (read_links_bnd _ _ _ _ _ _ _ _ B E) as X. destruct r; [injection H as _ <-; exact X|]. eapply IH; [exact X|exact H].
Qed.
Lemma next_bnd : forall x s e s', nextGIZA x s = Some (true, e, s') -> bnd (e_al e).
Proof.
  intros x s e s' H. unfold nextGIZA in H. destruct (GizaModel.getln s) as [ok s1]. destruct ok; cbn [negb] in H; [|discriminate]. destruct (get_NF SP (s_buf s1)); [|discriminate]. destruct (giza_header _ _) as [[reps|]|]; try discriminate. destruct (get_NF SP _); [|discriminate]. destruct (get_NF SP _); [|discriminate]. destruct (fields_from _ _ _ _); [|discriminate]. destruct (count_open _ _ _ _) as [slen|]; [|discriminate].
  destruct (slen =? 0); [discriminate|]. destruct (read_words_links _ _ _ _ _ _ _ _) as [[ns m]|] eqn:E; [|discriminate]. injection H as <- <-. cbn [e_al]. eapply rwl_bnd; [|exact E]. apply bnd_init.
Qed.
Lemma read_bnd : forall f es, read_giza f = Some es -> Forall (fun e => bnd (e_al e)) es.
Proof.
  intros f es H. unfold read_giza in H. destruct (s_open f) as [s|]; [|discriminate]. revert H. generalize no_entry as x, (S (length (s_rest s))) as fuel. intros x fuel. revert x s es. induction fuel as [|fu IH]; intros x s es H; cbn [read_all] in H; [injection H as <-; constructor|].
  destruct (nextGIZA x s) as [[[b e] s']|] eqn:E; [|discriminate]. destruct b; [|injection H as <-; constructor]. destruct (read_all fu e s') as [r|] eqn:R; [|discriminate]. injection H as <-. constructor; [eapply next_bnd; exact E|eapply IH; exact R].
Qed.
(** ** alignments kept in a container *)
Definition dims_of (p : list str * list str) (m : wam) : Prop := S (wI m) = length (fst p) /\ wJ m = length (snd p).
Lemma opf_dims : forall o m w, same_dims (opf o m w) m.
Proof. intros o m w. unfold opf. destruct (apply_op_ok o m w) as (r & E & D & _). now rewrite E. Qed.
Lemma opf_bnd : forall o m w, bnd m -> bnd (opf o m w).
Proof. intros o m w B. eapply bnd_op; [exact B|apply opf_ok]. Qed.
Lemma runf_ok : forall p l a, dims_of p a -> bnd a -> Forall (fun q => dims_of p (snd q)) l -> dims_of p (runf l a) /\ bnd (runf l a) /\ chain a l (runf l a).
Proof.
  intros p. induction l as [|[o w] l IH]; intros a D B F; [split; [exact D|]; split; [exact B|]; constructor; apply wsame_refl|]. inversion F as [|? ? DW F']; subst. cbn [snd] in DW. unfold runf. cbn [fold_left fst snd]. fold (runf l (opf o a w)). destruct (opf_dims o a w) as [X1 X2]. destruct D as [D1 D2]. destruct DW as [W1 W2].
  destruct (IH (opf o a w)) as (P1 & P2 & P3); [split; congruence|now apply opf_bnd|exact F'|]. split; [exact P1|]. split; [exact P2|]. econstructor; [|exact P3]. destruct (apply_op_ok o a w) as (r & E & _ & SPEC). rewrite opf_ok in E. injection E as <-. apply SPEC. split; [lia|congruence].
Qed.
Lemma turn_wf : forall tr e, storable tr e -> bnd (e_al e) -> wf_entry (turn tr e) /\ bnd (e_al (turn tr e)) /\ seen tr e (turn tr e).
Proof.
  intros tr e [W X] B. split; [|split; [destruct tr; [apply bnd_transpose, B|exact B]|now apply view_seen]]. destruct tr; [|exact W]. destruct (X eq_refl) as [X1 X2]. destruct W as (NE & PN & NO & PT & DI & DJ & SM & B0). destruct (transpose_spec (e_al e)) as (T1 & T2 & T3).
  cbn [turn]. unfold transposeAlig, wf_entry. cbn [e_ns e_t e_al]. destruct (e_ns e) as [|n s] eqn:E; [contradiction|]. inversion PN as [|? ? PNn PNs]; subst. cbn [length] in *.
  split; [discriminate|]. split; [now constructor|]. split; [intros [Y|Y]; [apply NO; now left|contradiction]|]. split; [exact PNs|]. split; [congruence|]. split; [lia|]. split; [unfold small in *; lia|]. intros i j _. apply bnd_transpose, B.
Qed.
Lemma wf_dims : forall e, wf_entry e -> dims_of (pair_of e) (e_al e).
Proof. intros e (NE & PN & NO & PT & DI & DJ & _). split; assumption. Qed.
Lemma same_pair_true : forall p e, same_pair p e = true <-> pair_of e = p.
Proof. intros p e. unfold same_pair. destruct (pair_eq p (pair_of e)) as [E|N]; split; intros H; congruence. Qed.
Lemma find_occ : forall p es, find (same_pair p) es = None <-> ~ In p (map pair_of es).
Proof.
  intros p es. split.
  - intros H I1. apply in_map_iff in I1 as (e & E & I1). apply (find_none _ _ H) in I1. apply same_pair_true in E. congruence.
  - intros H. destruct (find (same_pair p) es) as [e|] eqn:E; [|reflexivity]. exfalso. apply H. apply find_some in E as [E1 E2]. apply same_pair_true in E2 as <-. now apply in_map.
Qed.

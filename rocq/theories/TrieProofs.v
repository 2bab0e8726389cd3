(** Proofs about prefix trees. *)
From Coq Require Import Ascii String Arith List Bool Lia.
From Verif Require Import TextSpec TrieSpec TrieModel.
Import ListNotations.

Section TRIE.
Context {K D : Type}.
Variable keq : forall a b : K, {a = b} + {a <> b}.
Variable ddef : D.
Notation tr := (@tr K D). Notation root := (@root K D).

Fixpoint pfx (a b : list K) : bool :=
  match a, b with [], _ => true | x :: a', y :: b' => if keq x y then pfx a' b' else false | _, [] => false end.
Lemma pfx_iff : forall a b, pfx a b = true <-> is_prefix a b.
Proof.
  induction a as [|x a IH]; intros b; cbn [pfx]; [split; auto; intros _; exists b; auto|]. destruct b as [|y b].
  - split; [discriminate|]. intros [r H]. discriminate.
  - destruct (keq x y) as [->|N].
    + rewrite IH. split; intros [r H]; [exists r; simpl; now rewrite H|]. exists r. simpl in H. congruence.
    + split; [discriminate|]. intros [r H]. simpl in H. congruence.
Qed.
Definition qeq : forall a b : list K, {a = b} + {a <> b} := list_eq_dec keq.

Definition dat (t : tr) (k : K) (rest : list K) : option D := match node_at keq t k rest with TNode _ d _ _ => Some d | TNull => None end.
Lemma dat_node : forall k0 d ch nx k rest, dat (TNode k0 d ch nx) k rest =
  if keq k0 k then match rest with [] => Some d | k2 :: r => dat ch k2 r end else dat nx k rest.
Proof. intros. unfold dat. cbn [node_at]. destruct (keq k0 k); auto. destruct rest; auto. Qed.

Definition upd (o : option D) (def : D) (q : list K) (d : D) (q' : list K) : option D :=
  if qeq q' q then Some d else match o with Some x => Some x | None => if pfx q' q then Some def else None end.
Lemma upd_cons : forall o def k q d q', upd o def (k :: q) d (k :: q') = upd o def q d q'.
Proof.
  intros. unfold upd. cbn [pfx]. destruct (keq k k) as [_|N]; [|congruence].
  destruct (qeq (k :: q') (k :: q)) as [E|N], (qeq q' q) as [E2|N2]; auto; congruence.
Qed.
Lemma upd_other : forall o def k q d k' q', k' <> k -> upd o def (k :: q) d (k' :: q') = o.
Proof.
  intros. unfold upd. cbn [pfx]. destruct (qeq _ _) as [E|_]; [congruence|]. destruct (keq k' k); [congruence|]. destruct o; auto.
Qed.
Lemma upd_nil_r : forall o def d k q, upd o def [] d (k :: q) = o.
Proof. intros. unfold upd. destruct (qeq _ _) as [E|_]; [congruence|]. cbn [pfx]. destruct o; auto. Qed.
Lemma chain_dat : forall rest k d k' r', dat (chain ddef k rest d) k' r' = upd None ddef (k :: rest) d (k' :: r').
Proof.
  induction rest as [|k2 rest IH]; intros k d k' r'; cbn [chain]; rewrite dat_node; destruct (keq k k') as [<-|N].
  - rewrite upd_cons. destruct r'; [reflexivity|]. rewrite upd_nil_r. reflexivity.
  - rewrite upd_other by congruence. reflexivity.
  - rewrite upd_cons. destruct r' as [|k3 r']; [reflexivity|]. apply IH.
  - rewrite upd_other by congruence. reflexivity.
Qed.
Lemma ins_dat : forall (t : tr) k rest d k' r', dat (ins keq ddef t k rest d) k' r' = upd (dat t k' r') ddef (k :: rest) d (k' :: r').
Proof.
  induction t as [|k0 d0 ch IHc nx IHn]; intros k rest d k' r'.
  - cbn [ins]. rewrite chain_dat. reflexivity.
  - cbn [ins]. destruct (keq k0 k) as [->|N].
    + destruct rest as [|k2 rest]; rewrite !dat_node; destruct (keq k k') as [<-|N'].
      * rewrite upd_cons. destruct r'; [reflexivity|]. now rewrite upd_nil_r.
      * now rewrite upd_other by congruence.
      * rewrite upd_cons. destruct r' as [|k3 r']; [reflexivity|]. apply IHc.
      * now rewrite upd_other by congruence.
    + rewrite !dat_node. destruct (keq k0 k') as [<-|N']; [now rewrite upd_other by congruence|]. apply IHn.
Qed.
Lemma set_dat : forall (t : tr) k rest d k' r', dat (set_at keq t k rest d) k' r' =
  if qeq (k' :: r') (k :: rest) then match dat t k' r' with Some _ => Some d | None => None end else dat t k' r'.
Proof.
  induction t as [|k0 d0 ch IHc nx IHn]; intros k rest d k' r'.
  - cbn [set_at]. change (dat TNull k' r') with (@None D). destruct (qeq (k' :: r') (k :: rest)); auto.
  - cbn [set_at]. destruct (keq k0 k) as [->|N].
    + destruct rest as [|k2 rest]; rewrite !dat_node; destruct (keq k k') as [<-|N'].
      * destruct r'; destruct (qeq _ _); auto; congruence.
      * destruct (qeq _ _); auto; congruence.
      * destruct r' as [|k3 r']; [destruct (qeq _ _); auto; congruence|]. rewrite IHc.
        destruct (qeq (k3 :: r') (k2 :: rest)), (qeq (k :: k3 :: r') (k :: k2 :: rest)); auto; congruence.
      * destruct (qeq _ _); auto; congruence.
    + rewrite !dat_node. destruct (keq k0 k') as [<-|N']; [destruct (qeq _ _); auto; congruence|]. apply IHn.
Qed.

(** root level *)
Definition first_data (r : root) : D := match r with RUninit s => s | RNode _ => ddef end.
Lemma find_dat : forall (t : tr) k rest, find keq (RNode t) (k :: rest) = dat t k rest.
Proof. reflexivity. Qed.
Theorem insert_find : forall (r : root) q d q', q <> [] -> q' <> [] ->
  find keq (insert keq ddef r q d) q' = upd (find keq r q') (if length q' =? 1 then first_data r else ddef) q d q'.
Proof.
  intros r q d q' N N'. destruct q as [|k rest]; [congruence|]. destruct q' as [|k' r']; [congruence|]. destruct r as [stale|t]; cbn [insert].
  - destruct rest as [|k2 rest]; rewrite find_dat, dat_node; destruct (keq k k') as [<-|NK].
    + rewrite upd_cons. destruct r'; [reflexivity|]. now rewrite upd_nil_r.
    + rewrite upd_other by congruence. reflexivity.
    + rewrite upd_cons. destruct r' as [|k3 r']; [reflexivity|]. apply chain_dat.
    + rewrite upd_other by congruence. reflexivity.
  - rewrite !find_dat, ins_dat. cbn [first_data]. destruct (length (k' :: r') =? 1); reflexivity.
Qed.
Theorem set_find : forall (r : root) q d q', q <> [] -> q' <> [] -> find keq (set_data keq r q d) q' =
  if qeq q' q then match find keq r q' with Some _ => Some d | None => None end else find keq r q'.
Proof.
  intros r q d q' N N'. destruct q as [|k rest]; [congruence|]. destruct q' as [|k' r']; [congruence|]. destruct r as [stale|t]; cbn [set_data].
  - cbn [find]. destruct (qeq _ _); auto.
  - rewrite !find_dat. apply set_dat.
Qed.

(** ** listing *)
Fixpoint post (pre : list K) (t : tr) : list (list K * D) :=
  match t with TNull => [] | TNode k d ch nx => post (pre ++ [k]) ch ++ (pre ++ [k], d) :: post pre nx end.
Fixpoint sibs (t : tr) : list K := match t with TNull => [] | TNode k _ _ nx => k :: sibs nx end.
Fixpoint wf (t : tr) : Prop := match t with TNull => True | TNode k _ ch nx => ~ In k (sibs nx) /\ wf ch /\ wf nx end.

Lemma chain_sibs : forall rest k d, sibs (chain ddef k rest d) = [k]. Proof. destruct rest; reflexivity. Qed.
Lemma chain_wf : forall rest k d, wf (chain ddef k rest d).
Proof. induction rest as [|k2 rest IH]; intros; cbn; auto. Qed.
Lemma ins_sibs : forall (t : tr) k rest d x, In x (sibs (ins keq ddef t k rest d)) <-> In x (sibs t) \/ x = k.
Proof.
  induction t as [|k0 d0 ch _ nx IHn]; intros k rest d x; cbn [ins].
  - rewrite chain_sibs. cbn. split; intros H; [destruct H as [H|[]]; auto|destruct H as [[]|H]; auto].
  - destruct (keq k0 k) as [->|N].
    + destruct rest; cbn; split; intros [H|H]; auto.
    + cbn [sibs In]. rewrite IHn. tauto.
Qed.
Lemma ins_wf : forall (t : tr) k rest d, wf t -> wf (ins keq ddef t k rest d).
Proof.
  induction t as [|k0 d0 ch IHc nx IHn]; intros k rest d W; cbn [ins]; [apply chain_wf|]. destruct W as (W1 & W2 & W3).
  destruct (keq k0 k) as [->|N].
  - destruct rest; cbn [wf]; auto.
  - cbn [wf]. split; [|split]; auto. rewrite ins_sibs. intros [H|H]; auto.
Qed.
Lemma set_sibs : forall (t : tr) k rest d, sibs (set_at keq t k rest d) = sibs t.
Proof. induction t as [|k0 d0 ch _ nx IHn]; intros; cbn [set_at]; auto. destruct (keq k0 k); [destruct rest; auto|]. cbn. now rewrite IHn. Qed.
Lemma set_wf : forall (t : tr) k rest d, wf t -> wf (set_at keq t k rest d).
Proof.
  induction t as [|k0 d0 ch IHc nx IHn]; intros k rest d W; cbn [set_at]; auto. destruct W as (W1 & W2 & W3).
  destruct (keq k0 k); [destruct rest; cbn [wf]; auto|]. cbn [wf]. rewrite set_sibs. auto.
Qed.

Lemma dat_sibs : forall (t : tr) k rest d, dat t k rest = Some d -> In k (sibs t).
Proof.
  induction t as [|k0 d0 ch _ nx IHn]; intros k rest d H; [discriminate|]. rewrite dat_node in H. cbn. destruct (keq k0 k); auto. right. eauto.
Qed.
Lemma post_in : forall (t : tr), wf t -> forall pre q d, In (q, d) (post pre t) <-> exists k rest, q = pre ++ k :: rest /\ dat t k rest = Some d.
Proof.
  induction t as [|k0 d0 ch IHc nx IHn]; intros W pre q d.
  - cbn. split; [tauto|]. intros (k & rest & _ & H). discriminate.
  - destruct W as (W1 & W2 & W3). cbn [post]. rewrite in_app_iff. cbn [In]. rewrite (IHc W2), (IHn W3). split.
    + intros [(k & rest & -> & H)|[H|(k & rest & -> & H)]].
      * exists k0, (k :: rest). rewrite <- app_assoc. split; [reflexivity|]. rewrite dat_node. destruct (keq k0 k0); [auto|congruence].
      * exists k0, []. split; [congruence|]. rewrite dat_node. destruct (keq k0 k0); congruence.
      * exists k, rest. split; auto. rewrite dat_node. destruct (keq k0 k) as [->|]; auto. exfalso. apply W1. eapply dat_sibs. exact H.
    + intros (k & rest & -> & H). rewrite dat_node in H. destruct (keq k0 k) as [<-|].
      * destruct rest as [|k2 rest]; [right; left; congruence|]. left. exists k2, rest. rewrite <- app_assoc. auto.
      * right. right. exists k, rest. auto.
Qed.
Lemma nodup_app : forall (a b : list (list K)), NoDup a -> NoDup b -> (forall x, In x a -> ~ In x b) -> NoDup (a ++ b).
Proof.
  induction a as [|x a IH]; intros b A B Dj; auto. inversion A. subst. cbn. constructor.
  - rewrite in_app_iff. intros [H|H]; auto. eapply Dj; [left; reflexivity|exact H].
  - apply IH; auto. intros y Hy. apply Dj. now right.
Qed.
Lemma in_fst : forall (l : list (list K * D)) q, In q (map fst l) <-> exists d, In (q, d) l.
Proof. intros l q. rewrite in_map_iff. split; [intros ([q' d] & E & H); cbn in E; subst; eauto|intros [d H]; exists (q, d); auto]. Qed.
Lemma post_nodup : forall (t : tr), wf t -> forall pre, NoDup (map fst (post pre t)).
Proof.
  induction t as [|k0 d0 ch IHc nx IHn]; intros W pre; [constructor|]. pose proof W as W0. destruct W as (W1 & W2 & W3). cbn [post]. rewrite map_app. cbn [map fst].
  apply nodup_app; [auto|constructor; auto|].
  - intros H. apply in_fst in H. destruct H as [d H]. apply (post_in nx W3) in H. destruct H as (k & rest & E & H).
    apply app_inv_head in E. injection E as E _. subst. apply W1. eapply dat_sibs. exact H.
  - intros q H H2. apply in_fst in H. destruct H as [d H]. apply (post_in ch W2) in H. destruct H as (k & rest & -> & H). rewrite <- app_assoc in H2. cbn in H2. destruct H2 as [E|H2].
    + apply app_inv_head in E. discriminate.
    + apply in_fst in H2. destruct H2 as [d2 H2]. apply (post_in nx W3) in H2. destruct H2 as (k' & rest' & E & H2).
      apply app_inv_head in E. injection E as E _. subst. apply W1. eapply dat_sibs. exact H2.
Qed.

(** the iterator lists [post] *)
Fixpoint rem (st : list tr) : list (list K * D) :=
  match st with
  | TNode k d ch nx :: st' => (rev (keys_of st), d) :: post (rev (keys_of st')) nx ++ rem st'
  | _ => []
  end.
Fixpoint nodes (st : list tr) : Prop := match st with [] => True | TNode _ _ _ _ :: st' => nodes st' | TNull :: _ => False end.
Lemma descend_ok : forall (t : tr) st, t <> TNull -> nodes st -> nodes (descend t st) /\ descend t st <> [] /\ rem (descend t st) = post (rev (keys_of st)) t ++ rem st.
Proof.
  induction t as [|k d ch IHc nx _]; intros st N S; [congruence|]. cbn [descend]. destruct ch as [|k2 d2 ch2 nx2].
  - split; [exact S|]. split; [discriminate|]. cbn [rem post keys_of rev app]. rewrite <- ?app_assoc. reflexivity.
  - destruct (IHc (TNode k d (TNode k2 d2 ch2 nx2) nx :: st)) as (A & B & C); [discriminate|exact S|]. split; auto. split; auto. rewrite C.
    cbn [keys_of rev]. cbn [post]. cbn [rem keys_of rev]. rewrite <- ?app_assoc. cbn [app]. rewrite <- ?app_assoc. reflexivity.
Qed.
Lemma iterate_ok : forall fuel st, nodes st -> length (rem st) <= fuel -> iterate fuel st = Some (rem st).
Proof.
  induction fuel as [|fuel IH]; intros st S L.
  - destruct st as [|[|k d ch nx] st]; cbn in *; try tauto; auto. lia.
  - destruct st as [|[|k d ch nx] st]; [reflexivity|easy|]. cbn [iterate deref]. cbn [rem length] in L.
    assert (E : nodes (incr_iter (TNode k d ch nx :: st)) /\ rem (incr_iter (TNode k d ch nx :: st)) = post (rev (keys_of st)) nx ++ rem st).
    { cbn [incr_iter]. destruct nx as [|nk nd n1 n2]; [split; auto|]. destruct (descend_ok (TNode nk nd n1 n2) st) as (A & _ & C); [discriminate|exact S|]. split; [exact A|exact C]. }
    destruct E as [E1 E2]. rewrite IH; [|exact E1|rewrite E2; lia]. rewrite E2. reflexivity.
Qed.
Lemma post_len : forall (t : tr) pre, length (post pre t) = size_t t.
Proof. induction t as [|k d ch IHc nx IHn]; intros pre; cbn [post size_t]; auto. rewrite app_length. cbn [length]. rewrite IHc, IHn. lia. Qed.
Definition wf_root (r : root) : Prop := match r with RUninit _ => True | RNode t => t <> TNull /\ wf t end.
Definition listing (r : root) : list (list K * D) := match r with RUninit _ => [] | RNode t => post [] t end.
Theorem iterate_root : forall (r : root), wf_root r -> iterate (size r) (begin_root r) = Some (listing r).
Proof.
  intros [s|t] W; [reflexivity|]. destruct W as [N W]. cbn [begin_root size listing]. destruct (descend_ok t [] N I) as (A & _ & C).
  cbn in C. rewrite app_nil_r in C. unfold begin_at. rewrite iterate_ok; [now rewrite C|exact A|]. rewrite C, post_len. lia.
Qed.
Lemma insert_wf : forall (r : root) q d, wf_root r -> wf_root (insert keq ddef r q d).
Proof.
  intros r [|k rest] d W; auto. destruct r as [s|t]; cbn [insert].
  - destruct rest; cbn; (split; [discriminate|]); cbn; auto. split; auto. split; auto. apply chain_wf.
  - destruct W as [N W]. split; [|now apply ins_wf]. destruct t; [congruence|]. cbn [ins]. destruct (keq _ _); [destruct rest|]; discriminate.
Qed.
Lemma set_data_wf : forall (r : root) q d, wf_root r -> wf_root (set_data keq r q d).
Proof.
  intros r [|k rest] d W.
  - destruct r as [s|[|]]; auto. destruct W as [N W]. cbn. split; [discriminate|]. exact W.
  - destruct r as [s|t]; auto. destruct W as [N W]. cbn [set_data]. split; [|now apply set_wf]. destruct t; [congruence|]. cbn [set_at]. destruct (keq _ _); [destruct rest|]; discriminate.
Qed.
Theorem listing_in : forall (r : root), wf_root r -> forall q d, In (q, d) (listing r) <-> q <> [] /\ find keq r q = Some d.
Proof.
  intros [s|t] W q d.
  - cbn. split; [tauto|]. intros [N H]. destruct q; [congruence|discriminate].
  - destruct W as [_ W]. cbn [listing]. rewrite (post_in t W). split.
    + intros (k & rest & -> & H). split; [discriminate|exact H].
    + intros [N H]. destruct q as [|k rest]; [congruence|]. exists k, rest. auto.
Qed.
Theorem listing_nodup : forall (r : root), wf_root r -> NoDup (map fst (listing r)).
Proof. intros [s|t] W; [constructor|]. apply post_nodup. apply W. Qed.
(** extensions come before what they extend *)
Lemma post_order : forall (t : tr), wf t -> forall pre l1 q d l2, post pre t = l1 ++ (q, d) :: l2 ->
  forall q' d', In (q', d') l2 -> ~ proper_prefix q q'.
Proof.
  induction t as [|k0 d0 ch IHc nx IHn]; intros W pre l1 q d l2 E q' d' H [r [Hr NR]]; [destruct l1; discriminate|].
  pose proof W as W0. destruct W as (W1 & W2 & W3). cbn [post] in E.
  pose proof (post_nodup _ W0 pre) as ND. cbn [post] in ND.
  assert (IN : In (q, d) (post pre (TNode k0 d0 ch nx))) by (cbn [post]; rewrite E; apply in_elt).
  apply app_eq_app in E. destruct E as (m & [[E1 E2]|[E1 E2]]).
  - (* (q,d) in the children *)
    destruct m as [|x m]; [|cbn in E2; injection E2 as <- E2].
    + cbn in E2. injection E2 as E2 E3 E4. subst q. rewrite app_nil_r in E1. subst l2.
      apply (post_in nx W3) in H. destruct H as (k & rest & -> & H). rewrite <- app_assoc in Hr. apply app_inv_head in Hr.
      injection Hr as Hr _. subst k. apply W1. eapply dat_sibs. exact H.
    + assert (Hc : In (q, d) (post (pre ++ [k0]) ch)) by (rewrite E1; apply in_elt). apply (post_in ch W2) in Hc. destruct Hc as (k & rest & EQ & HD).
      rewrite E2 in H. apply in_app_or in H. destruct H as [H|[H|H]].
      * apply (IHc W2 _ _ _ _ _ E1 q' d' H). exists r. auto.
      * injection H as H _. rewrite <- H in Hr. rewrite EQ in Hr. apply (f_equal (@length K)) in Hr. rewrite !app_length in Hr. cbn in Hr. lia.
      * apply (post_in nx W3) in H. destruct H as (k' & rest' & E' & H). rewrite Hr, EQ in E'. rewrite <- !app_assoc in E'. apply app_inv_head in E'.
        cbn in E'. injection E' as E' _. subst k'. apply W1. eapply dat_sibs. exact H.
  - destruct m as [|x m].
    + cbn in E2. injection E2 as E2 E3 E4. subst q l2.
      apply (post_in nx W3) in H. destruct H as (k & rest & -> & H). rewrite <- app_assoc in Hr. apply app_inv_head in Hr.
      injection Hr as Hr _. subst k. apply W1. eapply dat_sibs. exact H.
    + cbn in E2. injection E2 as <- E2. symmetry in E2. apply (IHn W3 _ _ _ _ _ (eq_sym E2) q' d' H). exists r. auto.
Qed.
Theorem listing_order : forall (r : root), wf_root r -> forall l1 q d l2, listing r = l1 ++ (q, d) :: l2 -> forall q' d', In (q', d') l2 -> ~ proper_prefix q q'.
Proof. intros [s|t] W l1 q d l2 E; [destruct l1; discriminate|]. destruct W as [_ W]. eapply post_order; eauto. Qed.

(** ** size, height, branching *)
Theorem size_listing : forall (r : root), size r = length (listing r).
Proof. intros [s|t]; auto. cbn [size listing]. now rewrite post_len. Qed.
Lemma longest_app : forall (a b : list (list K)), longest (a ++ b) = Nat.max (longest a) (longest b).
Proof. induction a as [|x a IH]; intros b; auto. cbn [app longest fold_right]. fold (longest (a ++ b)). fold (longest a). rewrite IH. lia. Qed.
Lemma height_ok : forall (t : tr) i r pre, length pre + 1 = i -> height_t t i r = Nat.max r (longest (map fst (post pre t))).
Proof.
  induction t as [|k d ch IHc nx IHn]; intros i r pre E; [cbn; lia|]. cbn [height_t post].
  rewrite (IHn i _ pre E), (IHc (i + 1) _ (pre ++ [k])) by (rewrite app_length; cbn; lia).
  rewrite map_app, longest_app. cbn [map fst longest fold_right]. fold (longest (map fst (post pre nx))). rewrite app_length. cbn [length].
  destruct (r <? i) eqn:C; [apply Nat.ltb_lt in C|apply Nat.ltb_ge in C]; lia.
Qed.
Lemma longest_ge : forall (l : list (list K)) q, In q l -> length q <= longest l.
Proof. induction l as [|x l IH]; intros q H; [easy|]. cbn [longest fold_right]. fold (longest l). destruct H as [->|H]; [lia|]. apply IH in H. lia. Qed.
Theorem height_listing : forall (r : root), wf_root r -> height r = longest (map fst (listing r)).
Proof.
  intros [s|t] W; auto. destruct W as [N W]. cbn [height listing]. rewrite (height_ok t 1 1 []) by reflexivity.
  destruct t as [|k d ch nx]; [congruence|]. assert (L : length [k] <= longest (map fst (post [] (TNode k d ch nx)))).
  { apply longest_ge. apply in_fst. exists d. cbn [post]. apply in_elt. }
  cbn [length] in L. lia.
Qed.
Lemma incr_ok : forall i r, i < length r -> exists r', incr_at i r = Some r' /\ length r' = length r /\
  forall j, nth j r' 0 = nth j r 0 + (if j =? i then 1 else 0).
Proof.
  induction i as [|i IH]; intros r L; destruct r as [|x r]; cbn in L; try lia.
  - exists (S x :: r). split; [reflexivity|]. split; [reflexivity|]. intros [|j]; cbn; lia.
  - destruct (IH r) as (r' & E & L' & N); [lia|]. cbn [incr_at]. rewrite E. exists (x :: r'). split; [reflexivity|]. split; [cbn; lia|].
    intros [|j]; cbn; [lia|]. apply N.
Qed.
Lemma of_length_app : forall n (a b : list (list K)), of_length n (a ++ b) = of_length n a + of_length n b.
Proof. intros. unfold of_length. now rewrite filter_app, app_length. Qed.
Lemma branching_ok : forall (t : tr) i r pre, length pre = i -> (forall q, In q (map fst (post pre t)) -> length q <= length r) ->
  exists r', branching_t t i r = Some r' /\ length r' = length r /\ forall j, nth j r' 0 = nth j r 0 + of_length (S j) (map fst (post pre t)).
Proof.
  induction t as [|k d ch IHc nx IHn]; intros i r pre E B.
  - exists r. split; [reflexivity|]. split; [reflexivity|]. intros j. unfold of_length. cbn. lia.
  - cbn [post] in B. rewrite map_app in B. cbn [map fst] in B. cbn [branching_t].
    assert (Bi : i < length r).
    { assert (H : length (pre ++ [k]) <= length r) by (apply B; apply in_elt). rewrite app_length in H. cbn in H. lia. }
    destruct (incr_ok i r Bi) as (r1 & -> & L1 & N1).
    destruct (IHc (i + 1) r1 (pre ++ [k])) as (r2 & -> & L2 & N2).
    { rewrite app_length. cbn. lia. }
    { intros q H. rewrite L1. apply B. apply in_or_app. auto. }
    destruct (IHn i r2 pre E) as (r3 & -> & L3 & N3).
    { intros q H. rewrite L2, L1. apply B. apply in_or_app. right. now right. }
    exists r3. split; [reflexivity|]. split; [congruence|]. intros j. rewrite N3, N2, N1. cbn [post]. rewrite map_app, of_length_app.
    cbn [map fst]. change ((pre ++ [k]) :: map fst (post pre nx)) with ([pre ++ [k]] ++ map fst (post pre nx)). rewrite of_length_app.
    unfold of_length at 4. cbn [filter]. rewrite app_length. cbn [length]. rewrite E. replace (i + 1 =? S j) with (j =? i).
    + destruct (j =? i); cbn [length]; unfold of_length; lia.
    + destruct (j =? i) eqn:C; [apply Nat.eqb_eq in C|apply Nat.eqb_neq in C]; symmetry; [apply Nat.eqb_eq|apply Nat.eqb_neq]; lia.
Qed.
Theorem branching_listing : forall (r : root), wf_root r -> exists v, branchingFactor r = Some v /\ length v = height r /\
  forall j, nth j v 0 = of_length (S j) (map fst (listing r)).
Proof.
  intros r W. unfold branchingFactor. pose proof (height_listing r W) as H. destruct r as [s|t].
  - exists []. split; [reflexivity|]. split; [reflexivity|]. intros [|j]; reflexivity.
  - destruct (branching_ok t 0 (repeat 0 (height (RNode t))) []) as (v & E & L & N); auto.
    { intros q Q. rewrite repeat_length, H. now apply longest_ge. }
    rewrite E. exists v. split; [reflexivity|]. rewrite repeat_length in L. split; [exact L|]. intros j. rewrite N. rewrite nth_repeat. reflexivity.
Qed.

(** ** findV *)
Lemma find_v_ok : forall (t : tr) rest k, let v := find_v keq t k rest in length v <= S (length rest) /\
  (forall i, i < length v -> dat t k (firstn i rest) = nth_error v i) /\
  (length v < S (length rest) -> dat t k (firstn (length v) rest) = None).
Proof.
  induction t as [|k0 d0 ch IHc nx IHn]; intros rest k v; subst v.
  - cbn. split; [lia|]. split; [intros; lia|]. reflexivity.
  - cbn [find_v]. destruct (keq k0 k) as [->|N].
    + destruct rest as [|k2 rest].
      * cbn [length]. split; [lia|]. split; [|lia]. intros [|i] L; [|lia]. rewrite dat_node. destruct (keq k k); [reflexivity|congruence].
      * destruct (IHc rest k2) as (A & B & C). set (v := find_v keq ch k2 rest) in *. cbn [length]. split; [lia|]. split.
        -- intros [|i] L; cbn [firstn nth_error]; rewrite dat_node; (destruct (keq k k); [|congruence]); [reflexivity|]. apply B. lia.
        -- intros L. cbn [firstn]. rewrite dat_node. destruct (keq k k); [|congruence]. apply C. lia.
    + destruct (IHn rest k) as (A & B & C). split; [exact A|]. split.
      * intros i L. rewrite dat_node. destruct (keq k0 k); [congruence|]. now apply B.
      * intros L. rewrite dat_node. destruct (keq k0 k); [congruence|]. now apply C.
Qed.
Theorem findV_ok : forall (r : root) q, let v := findV keq r q in length v <= length q /\
  (forall i, i < length v -> find keq r (firstn (S i) q) = nth_error v i) /\
  (length v < length q -> find keq r (firstn (S (length v)) q) = None).
Proof.
  intros r q v. subst v. destruct q as [|k rest]; [cbn; split; [lia|]; split; intros; lia|].
  destruct r as [s|t]; [cbn; split; [lia|]; split; intros; [lia|reflexivity]|]. exact (find_v_ok t rest k).
Qed.

(** ** a trie filled by insertions *)
Definition inserts (log : list (list K * D)) : root := fold_left (fun r qd => insert keq ddef r (fst qd) (snd qd)) log (new_trie ddef).
Lemma inserts_snoc : forall log q d, inserts (log ++ [(q, d)]) = insert keq ddef (inserts log) q d.
Proof. intros. unfold inserts. now rewrite fold_left_app. Qed.
Lemma inserts_wf : forall log, wf_root (inserts log).
Proof. intros log. induction log as [|[q d] log IH] using rev_ind; [exact I|]. rewrite inserts_snoc. now apply insert_wf. Qed.
Lemma inserts_first : forall log, first_data (inserts log) = ddef.
Proof.
  intros log. induction log as [|[q d] log IH] using rev_ind; [reflexivity|]. rewrite inserts_snoc.
  destruct (inserts log) as [s|t] eqn:E; destruct q as [|k rest]; cbn [insert]; auto. destruct rest; reflexivity.
Qed.
Lemma upd_def : forall (r : root) (q' : list K), first_data r = ddef -> (if length q' =? 1 then first_data r else ddef) = ddef.
Proof. intros r q' ->. now destruct (_ =? 1). Qed.
Theorem inserts_find : forall log q, q <> [] -> (forall q' d, In (q', d) log -> q' <> []) ->
  (forall l1 d l2, log = l1 ++ (q, d) :: l2 -> ~ In q (map fst l2) -> find keq (inserts log) q = Some d) /\
  (~ In q (map fst log) -> (exists q', In q' (map fst log) /\ is_prefix q q') -> find keq (inserts log) q = Some ddef) /\
  ((forall q', In q' (map fst log) -> ~ is_prefix q q') -> find keq (inserts log) q = None).
Proof.
  intros log q NQ. induction log as [|[q0 d0] log IH] using rev_ind; intros NL.
  - split; [intros l1 d l2 E; destruct l1; discriminate|]. split; [intros _ (q' & [] & _)|]. intros _. destruct q; [congruence|reflexivity].
  - assert (NL' : forall q' d, In (q', d) log -> q' <> []) by (intros; eapply NL; apply in_or_app; left; eassumption).
    assert (N0 : q0 <> []) by (apply (NL q0 d0); apply in_elt). destruct (IH NL') as (I1 & I2 & I3).
    rewrite inserts_snoc, insert_find by auto. rewrite upd_def by apply inserts_first. unfold upd.
    destruct (qeq q q0) as [->|NE].
    + split; [|split].
      * intros l1 d l2 E NI. destruct l2 as [|x l2] using rev_ind; [apply app_inj_tail in E; destruct E as [_ E]; congruence|].
        exfalso. clear IHl2. change ((q0, d) :: l2 ++ [x]) with (((q0, d) :: l2) ++ [x]) in E. rewrite app_assoc in E. apply app_inj_tail in E. destruct E as [_ <-]. apply NI.
        rewrite map_app. apply in_or_app. right. now left.
      * intros NI. exfalso. apply NI. rewrite map_app. apply in_or_app. right. now left.
      * intros NP. exfalso. apply (NP q0); [rewrite map_app; apply in_or_app; right; now left|]. exists []. now rewrite app_nil_r.
    + split; [|split].
      * intros l1 d l2 E NI. destruct l2 as [|x l2] using rev_ind; [apply app_inj_tail in E; destruct E as [_ E]; congruence|]. clear IHl2.
        change ((q, d) :: l2 ++ [x]) with (((q, d) :: l2) ++ [x]) in E. rewrite app_assoc in E. apply app_inj_tail in E. destruct E as [E _].
        rewrite (I1 l1 d l2 E); [reflexivity|]. intro H. apply NI. rewrite map_app. apply in_or_app. now left.
      * intros NI (q' & H & P). rewrite map_app in NI, H. assert (NI' : ~ In q (map fst log)) by (intro; apply NI; apply in_or_app; now left).
        apply in_app_or in H. destruct H as [H|[H|[]]].
        -- rewrite I2; eauto.
        -- cbn in H. subst q'. rewrite (proj2 (pfx_iff q q0) P). destruct (find keq (inserts log) q) as [x|] eqn:F; auto.
           destruct (in_dec qeq q (map fst log)) as [Y|_]; [contradiction|].
           assert (Q : (exists q', In q' (map fst log) /\ is_prefix q q') \/ (forall q', In q' (map fst log) -> ~ is_prefix q q')).
           { generalize (map fst log). clear -keq. intros l0. induction l0 as [|y l [(z & A & B)|IHl]]; [right; intros ? []|left; exists z; split; [now right|auto]|].
             destruct (pfx q y) eqn:P; [apply pfx_iff in P; left; exists y; split; [now left|auto]|]. right. intros z [<-|H]; auto. rewrite <- pfx_iff. congruence. }
           destruct Q as [Q|Q]; [exact (I2 NI' Q)|specialize (I3 Q); discriminate].
      * intros NP. rewrite map_app in NP. rewrite I3 by (intros q' H; apply NP; apply in_or_app; now left).
        destruct (pfx q q0) eqn:P; auto. exfalso. apply pfx_iff in P. apply (NP q0); auto. apply in_or_app. right. now left.
Qed.
(** after clear(), the first node of the trie keeps the old data *)
Lemma clear_stale : forall k d rest d', rest <> [] -> find keq (insert keq ddef (clear (insert keq ddef (new_trie ddef) [k] d)) (k :: rest) d') [k] = Some d.
Proof. intros k d rest d' N. destruct rest; [congruence|]. cbn. destruct (keq k k); [reflexivity|congruence]. Qed.
End TRIE.

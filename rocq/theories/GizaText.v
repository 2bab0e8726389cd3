(** Fields of the lines of an alignment file. *)
From Coq Require Import Ascii String Arith ZArith NArith QArith List Bool Lia.
From Verif Require Import TextSpec TextModel TextProofs VocabSpec VocabModel VocabProofs AligSpec AligModel PmModel PmText GfmtModel GfmtProofs GfmtText WgfSpec WgfModel WgfText GizaSpec GizaModel.
Import ListNotations.
Local Open Scope nat_scope.
Notation OB := (T "({").
Notation CB := (T "})").
Lemma skipn_nth : forall A (d : A) l k, k < length l -> skipn k l = nth k l d :: skipn (S k) l.
Proof. induction l as [|x l IH]; intros k H; cbn [length] in H; [lia|]. destruct k; [reflexivity|]. cbn [skipn nth]. apply IH. lia. Qed.
Lemma fields_from_ok : forall buf fuel k, length (flds buf) - k < fuel -> fields_from fuel buf (length (flds buf)) (S k) = Some (skipn k (flds buf)).
Proof.
  intros buf. induction fuel as [|f IH]; intros k H; [lia|]. cbn [fields_from]. destruct (Nat.leb_spec (S k) (length (flds buf))) as [L|L].
  - rewrite dol, IH by lia. rewrite (skipn_nth str [] _ k) by lia. reflexivity.
  - now rewrite skipn_all2 by lia.
Qed.
Lemma count_open_ok : forall buf fuel k, length (flds buf) - k < fuel -> count_open fuel buf (length (flds buf)) (S k) = Some (count_occ str_dec (skipn k (flds buf)) OB).
Proof.
  intros buf. induction fuel as [|f IH]; intros k H; [lia|]. cbn [count_open]. destruct (Nat.leb_spec (S k) (length (flds buf))) as [L|L].
  - rewrite dol, IH by lia. rewrite (skipn_nth str [] _ k) by lia. cbn [is_tok count_occ]. destruct (str_dec (nth k (flds buf) []) OB); reflexivity.
  - now rewrite skipn_all2 by lia.
Qed.
Lemma skip_now : forall buf fuel k, nth k (flds buf) [] = OB -> skip_to_open (S fuel) buf (length (flds buf)) (S k) = Some (S k).
Proof.
  intros buf fuel k H. cbn [skip_to_open]. destruct (Nat.leb_spec (S k) (length (flds buf))) as [L|L]; [|reflexivity].
  rewrite dol, H. cbn [is_tok]. destruct (str_dec OB OB); [reflexivity|contradiction].
Qed.
(** ** what the reader does with the links *)
Definition add_link (sp : nat) (m : wam) (j : nat) : wam :=
  if (0 <? sp) && (sp - 1 <? wI m) && (j - 1 <? wJ m) then w_setValue m (sp - 1) (j - 1) ((wc m (sp - 1) (j - 1) + 1) mod 2 ^ 32)%N else m.
Definition add_links (sp : nat) (l : list nat) (m : wam) : wam := fold_left (add_link sp) l m.
Fixpoint add_items (sp : nat) (its : list (str * list nat)) (m : wam) : wam :=
  match its with [] => m | (_, l) :: r => add_items (S sp) r (add_links sp l m) end.
Definition item_fields (p : str * list nat) : list str := fst p :: OB :: map dec (snd p) ++ [CB].
Definition pos_ok (nt j : nat) : Prop := 1 <= j <= nt.
Lemma dec_not_close : forall n, dec n <> CB.
Proof. intros n E. pose proof (dec_shape n) as F. rewrite E in F. inversion F as [|? ? X _]; subst. destruct X as (d & Hd & X). do 10 (destruct d as [|d]; [discriminate X|]). lia. Qed.
Lemma dec_not_open : forall n, dec n <> OB.
Proof. intros n E. pose proof (dec_shape n) as F. rewrite E in F. inversion F as [|? ? X _]; subst. destruct X as (d & Hd & X). do 10 (destruct d as [|d]; [discriminate X|]). lia. Qed.
Lemma read_links_ok : forall l fuel buf pre post sp nt m, flds buf = pre ++ map dec l ++ CB :: post -> Forall (pos_ok nt) l -> small nt -> length l < fuel ->
  read_links fuel buf (length (flds buf)) (S (length pre)) sp nt m = Some (Go (add_links sp l m) (S (length pre + length l))).
Proof.
  induction l as [|j l IH]; intros fuel buf pre post sp nt m E F Hn HF; (destruct fuel as [|f]; [cbn [length] in HF; lia|]); cbn [read_links].
  - destruct (Nat.leb_spec (S (length pre)) (length (flds buf))) as [L|L]; [|rewrite E, app_length in L; cbn [length map app] in L; lia].
    rewrite dol, E. cbn [map app]. rewrite nth_mid. destruct (str_dec CB CB); [|contradiction]. cbn [length]. rewrite Nat.add_0_r. reflexivity.
  - inversion F as [|? ? P F']; subst. destruct (Nat.leb_spec (S (length pre)) (length (flds buf))) as [L|L]; [|rewrite E, app_length in L; cbn [length map app] in L; lia].
    rewrite dol, E. cbn [map app]. rewrite nth_mid. destruct (str_dec (dec j) CB) as [X|_]; [now apply dec_not_close in X|].
    assert (J : atoi (dec j) = Some j). { apply atoi_dec. unfold small, INT_MAX in *. destruct P. lia. } rewrite J.
    destruct P as [P1 P2]. destruct (Nat.eqb_spec j 0); [lia|]. destruct (Nat.ltb_spec nt j); [lia|]. cbn [orb].
    assert (E' : flds buf = (pre ++ [dec j]) ++ map dec l ++ CB :: post) by (rewrite E, <- app_assoc; reflexivity).
    pose proof (IH f buf _ post sp nt (add_link sp m j) E' F' Hn ltac:(cbn [length] in HF; lia)) as R. rewrite app_length in R. cbn [length] in R. rewrite Nat.add_1_r in R.
    cbn [map app] in E. rewrite <- E. unfold add_link in R at 1. rewrite R. cbn [add_links fold_left length]. f_equal. f_equal; lia.
Qed.
Lemma rwl_ok : forall its fuel buf pre sp nt ns m, flds buf = pre ++ concat (map item_fields its) -> Forall (fun p => Forall (pos_ok nt) (snd p)) its -> small nt -> length its < fuel ->
  read_words_links fuel buf (length (flds buf)) (S (length pre)) sp nt ns m = Some (ns ++ map fst its, add_items sp its m).
Proof.
  induction its as [|[w l] its IH]; intros fuel buf pre sp nt ns m E F Hn HF; (destruct fuel as [|f]; [cbn [length] in HF; lia|]); cbn [read_words_links].
  - cbn [map concat] in E. rewrite app_nil_r in E. destruct (Nat.leb_spec (S (length pre)) (length (flds buf))) as [L|L]; [rewrite E in L; lia|]. cbn [map add_items]. now rewrite app_nil_r.
  - inversion F as [|? ? P F']; subst. cbn [snd] in P. cbn [map concat] in E. unfold item_fields at 1 in E. cbn [fst snd] in E.
    remember (concat (map item_fields its)) as R eqn:ER.
    assert (E0 : flds buf = pre ++ w :: OB :: map dec l ++ CB :: R). { rewrite E. cbn [app]. rewrite <- app_assoc. reflexivity. } clear E.
    destruct (Nat.leb_spec (S (length pre)) (length (flds buf))) as [L|L]; [|rewrite E0, app_length in L; cbn [length] in L; lia].
    assert (E1 : flds buf = (pre ++ [w]) ++ OB :: map dec l ++ CB :: R) by (rewrite E0, <- app_assoc; reflexivity).
    assert (E2 : flds buf = (pre ++ [w; OB]) ++ map dec l ++ CB :: R) by (rewrite E0, <- app_assoc; reflexivity).
    assert (E3 : flds buf = (pre ++ w :: OB :: map dec l ++ [CB]) ++ R) by (rewrite E0; rewrite <- app_assoc; cbn [app]; rewrite <- app_assoc; reflexivity).
    assert (N1 : nth (S (length pre)) (flds buf) [] = OB). { rewrite E1. replace (S (length pre)) with (length (pre ++ [w])) by (rewrite app_length; cbn [length]; lia). apply nth_mid. }
    assert (N0 : nth (length pre) (flds buf) [] = w) by (rewrite E0; apply nth_mid).
    rewrite !dol, N1, N0. rewrite skip_now by exact N1. cbn [is_tok]. destruct (str_dec OB OB); [|contradiction].
    pose proof (read_links_ok l (S (length (flds buf))) buf _ R sp nt m E2 P Hn) as RL. replace (length (pre ++ [w; OB])) with (S (S (length pre))) in RL by (rewrite app_length; cbn [length]; lia). cbn [Nat.add] in RL.
    rewrite RL by (rewrite E0, app_length; cbn [length]; rewrite app_length, map_length; lia).
    pose proof (IH f buf _ (S sp) nt (ns ++ [w]) (add_links sp l m) E3 F' Hn ltac:(cbn [length] in HF; lia)) as RW.
    match type of RW with context[S (length ?x)] => replace (S (length x)) with (S (S (S (S (length pre + length l))))) in RW by (rewrite app_length; cbn [length]; rewrite app_length, map_length; cbn [length]; lia) end.
    cbn [map fst add_items]. rewrite RW. rewrite <- app_assoc. reflexivity.
Qed.
Lemma count_items : forall its, Forall (fun p => fst p <> OB) its -> count_occ str_dec (concat (map item_fields its)) OB = length its.
Proof.
  induction its as [|[w l] its IH]; intros F; [reflexivity|]. inversion F as [|? ? W F']; subst. cbn [fst] in W. cbn [map concat]. rewrite count_occ_app, IH by exact F'. unfold item_fields. cbn [fst snd count_occ].
  destruct (str_dec w OB); [contradiction|]. destruct (str_dec OB OB); [|contradiction]. rewrite count_occ_app. cbn [count_occ]. destruct (str_dec CB OB) as [X|_]; [discriminate X|].
  replace (count_occ str_dec (map dec l) OB) with 0; [cbn [length]; lia|]. symmetry. apply count_occ_not_In. intros H. apply in_map_iff in H as (n1 & X & _). now apply dec_not_open in X.
Qed.
(** ** cells *)
Lemma wput_c : forall m i j v i' j', wc (wput m i j v) i' j' = if (i' =? i) && (j' =? j) then v else wc m i' j'. Proof. reflexivity. Qed.
Lemma add_link_dims : forall sp m j, same_dims (add_link sp m j) m.
Proof. intros. unfold add_link, w_setValue. destruct (_ && _ && _); [|split; reflexivity]. destruct (_ && _); split; reflexivity. Qed.
Lemma add_links_dims : forall l sp m, same_dims (add_links sp l m) m.
Proof. induction l as [|x l IH]; intros sp m; [split; reflexivity|]. cbn [add_links fold_left]. destruct (IH sp (add_link sp m x)) as [A B]. destruct (add_link_dims sp m x) as [C D]. unfold add_links in A, B. split; congruence. Qed.
Lemma add_items_dims : forall its sp m, same_dims (add_items sp its m) m.
Proof. induction its as [|[w l] its IH]; intros sp m; [split; reflexivity|]. cbn [add_items]. destruct (IH (S sp) (add_links sp l m)) as [A B]. destruct (add_links_dims l sp m) as [C D]. split; congruence. Qed.
Definition hits (sp : nat) (l : list nat) (i j : nat) : N := if sp =? S i then N.of_nat (count_occ Nat.eq_dec l (S j)) else 0%N.
Lemma add_link_cell : forall sp m x i j, inr m i j -> 1 <= x -> (wc m i j < 2 ^ 32)%N -> wc (add_link sp m x) i j = ((wc m i j + hits sp [x] i j) mod 2 ^ 32)%N.
Proof.
  intros sp m x i j [Hi Hj] Hx B. unfold hits. cbn [count_occ]. unfold add_link.
  assert (Z : forall P : bool, ((wc m i j + (if P then 0 else 0)) mod 2 ^ 32 = wc m i j)%N) by (intros []; rewrite N.add_0_r; now apply N.mod_small).
  destruct (Nat.eqb_spec sp (S i)) as [->|N].
  - change (0 <? S i) with true. cbn [andb]. replace (S i - 1) with i by lia. destruct (Nat.eq_dec x (S j)) as [->|Nx].
    + replace (S j - 1) with j by lia. rewrite (proj2 (Nat.ltb_lt _ _) Hi), (proj2 (Nat.ltb_lt _ _) Hj). cbn [andb]. unfold w_setValue. rewrite (proj2 (Nat.ltb_lt _ _) Hi), (proj2 (Nat.ltb_lt _ _) Hj). cbn [andb].
      rewrite wput_c, !Nat.eqb_refl. reflexivity.
    + rewrite N.add_0_r, (N.mod_small (wc m i j)) by exact B. destruct (_ && _); [|reflexivity]. unfold w_setValue. destruct (_ && _); [|reflexivity]. rewrite wput_c. destruct (Nat.eqb_spec j (x - 1)); [lia|]. now rewrite andb_false_r.
  - rewrite N.add_0_r, (N.mod_small (wc m i j)) by exact B. destruct (Nat.ltb_spec 0 sp); cbn [andb]; [|reflexivity]. destruct (_ && _); [|reflexivity]. unfold w_setValue. destruct (_ && _); [|reflexivity]. rewrite wput_c. destruct (Nat.eqb_spec i (sp - 1)); [lia|]. reflexivity.
Qed.
Lemma add_links_cell : forall l sp m i j, inr m i j -> Forall (fun x => 1 <= x) l -> (wc m i j < 2 ^ 32)%N -> wc (add_links sp l m) i j = ((wc m i j + hits sp l i j) mod 2 ^ 32)%N.
Proof.
  induction l as [|x l IH]; intros sp m i j R F B.
  - unfold hits. cbn [count_occ add_links fold_left]. destruct (_ =? _); cbn [N.of_nat]; rewrite N.add_0_r, N.mod_small by exact B; reflexivity.
  - inversion F as [|? ? X F']; subst. cbn [add_links fold_left]. fold (add_links sp l (add_link sp m x)). pose proof (add_link_cell sp m x i j R X B) as C.
    rewrite IH; [| |exact F'|].
    + rewrite C, N.add_mod_idemp_l by discriminate. f_equal. unfold hits. destruct (_ =? _); [|lia]. cbn [count_occ]. destruct (Nat.eq_dec x (S j)); lia.
    + destruct (add_link_dims sp m x) as [D1 D2]. unfold inr in *. rewrite D1, D2. exact R.
    + rewrite C. apply N.mod_lt. discriminate.
Qed.
Definition item_hits (sp : nat) (its : list (str * list nat)) (i j : nat) : N :=
  if sp <=? S i then N.of_nat (count_occ Nat.eq_dec (snd (nth (S i - sp) its ([], []))) (S j)) else 0%N.
Lemma add_items_cell : forall its sp m i j, inr m i j -> Forall (fun p => Forall (fun x => 1 <= x) (snd p)) its -> (wc m i j < 2 ^ 32)%N ->
  wc (add_items sp its m) i j = ((wc m i j + item_hits sp its i j) mod 2 ^ 32)%N.
Proof.
  induction its as [|[w l] its IH]; intros sp m i j R F B.
  - unfold item_hits. cbn [add_items]. rewrite nth_overflow by (cbn; lia). cbn [snd count_occ N.of_nat]. destruct (_ <=? _); rewrite N.add_0_r, N.mod_small by exact B; reflexivity.
  - inversion F as [|? ? X F']; subst. cbn [snd] in X. cbn [add_items]. pose proof (add_links_cell l sp m i j R X B) as C. rewrite IH; [| |exact F'|].
    + rewrite C, N.add_mod_idemp_l by discriminate. f_equal. unfold hits, item_hits. destruct (Nat.eqb_spec sp (S i)) as [->|N].
      * rewrite Nat.leb_refl, Nat.sub_diag. cbn [nth snd]. destruct (Nat.leb_spec (S (S i)) (S i)); lia.
      * destruct (Nat.leb_spec sp (S i)) as [L|L].
        -- destruct (Nat.leb_spec (S sp) (S i)); [|lia]. replace (S i - sp) with (S (S i - S sp)) by lia. cbn [nth]. lia.
        -- destruct (Nat.leb_spec (S sp) (S i)); lia.
    + destruct (add_links_dims l sp m) as [D1 D2]. unfold inr in *. rewrite D1, D2. exact R.
    + rewrite C. apply N.mod_lt. discriminate.
Qed.
(** ** what the printer writes *)
Definition items_of (ns : list str) (m : wam) : list (str * list nat) :=
  match ns with [] => [] | n :: s => (n, null_links m) :: map (fun p => (snd p, word_links m (fst p))) (combine (seq 0 (length s)) s) end.
Lemma count_repeat : forall x y n, count_occ Nat.eq_dec (repeat x n) y = if Nat.eq_dec x y then n else 0.
Proof. intros x y n. induction n as [|n IH]; cbn [repeat count_occ]; [destruct (Nat.eq_dec x y); reflexivity|]. destruct (Nat.eq_dec x y); lia. Qed.
Lemma count_word_links : forall m i j, j < wJ m -> count_occ Nat.eq_dec (word_links m i) (S j) = N.to_nat (wc m i j).
Proof.
  intros m i j H. unfold word_links. assert (G : forall l, NoDup l -> count_occ Nat.eq_dec (flat_map (fun j => repeat (S j) (N.to_nat (wc m i j))) l) (S j) = if in_dec Nat.eq_dec j l then N.to_nat (wc m i j) else 0).
  { induction l as [|x l IH]; intros D; [reflexivity|]. inversion D as [|? ? NI D']; subst. cbn [flat_map]. rewrite count_occ_app, count_repeat, IH by exact D'.
    destruct (Nat.eq_dec (S x) (S j)) as [E|E].
    - injection E as ->. destruct (in_dec Nat.eq_dec j l); [contradiction|]. destruct (in_dec Nat.eq_dec j (j :: l)) as [_|X]; [lia|exfalso; apply X; now left].
    - destruct (in_dec Nat.eq_dec j l) as [I1|I1]; destruct (in_dec Nat.eq_dec j (x :: l)) as [I2|I2]; try reflexivity; [exfalso; apply I2; now right|]. destruct I2 as [->|I2]; contradiction. }
  rewrite G by apply seq_NoDup. destruct (in_dec Nat.eq_dec j (seq 0 (wJ m))) as [_|X]; [reflexivity|]. exfalso. apply X, in_seq. lia.
Qed.
Lemma word_links_pos : forall m i, Forall (pos_ok (wJ m)) (word_links m i).
Proof. intros m i. apply Forall_forall. intros x H. apply in_flat_map in H as (j & J & H). apply repeat_spec in H. apply in_seq in J. unfold pos_ok. lia. Qed.
Lemma null_links_pos : forall m, Forall (pos_ok (wJ m)) (null_links m).
Proof. intros m. apply Forall_forall. intros x H. apply in_map_iff in H as (j & <- & H). apply filter_In in H as [H _]. apply in_seq in H. unfold pos_ok. lia. Qed.
Lemma items_pos : forall ns m, Forall (fun p => Forall (pos_ok (wJ m)) (snd p)) (items_of ns m).
Proof.
  intros [|n s] m; [constructor|]. constructor; [apply null_links_pos|]. apply Forall_forall. intros p H. apply in_map_iff in H as (q & <- & _). apply word_links_pos.
Qed.
Lemma combine_snd : forall A B (a : list A) (b : list B), length a = length b -> map snd (combine a b) = b.
Proof. induction a as [|x a IH]; intros [|y b] H; try discriminate H; [reflexivity|]. cbn [combine map snd]. now rewrite IH by (cbn in H; lia). Qed.
Lemma items_words : forall ns m, map fst (items_of ns m) = ns.
Proof. intros [|n s] m; [reflexivity|]. cbn [items_of map fst]. rewrite map_map. cbn [fst]. change (fun x : nat * str => snd x) with (@snd nat str). now rewrite combine_snd by now rewrite seq_length. Qed.
Lemma items_nth : forall ns m i, S i < length ns -> snd (nth (S i) (items_of ns m) ([], [])) = word_links m i.
Proof.
  intros [|n s] m i H; cbn [length] in H; [lia|]. cbn [items_of nth]. set (f := fun p : nat * str => (snd p, word_links m (fst p))). rewrite (nth_indep _ ([], []) (f (0, []))) by (rewrite map_length, combine_length, seq_length; lia).
  rewrite map_nth. rewrite combine_nth by now rewrite seq_length. cbn. now rewrite seq_nth by lia.
Qed.
Lemma ob_clean : clean OB. Proof. repeat split; [discriminate|..]; cbn; intuition discriminate. Qed.
Lemma cb_clean : clean CB. Proof. repeat split; [discriminate|..]; cbn; intuition discriminate. Qed.
Lemma links_fields : forall w l r, clean w -> flds (links_text w l ++ r) = item_fields (w, l) ++ flds r.
Proof.
  intros w l r W. unfold links_text.
  assert (E : (w ++ T " ({ " ++ concat (map (fun j => dec j ++ [SP]) l) ++ T "}) ") ++ r = w ++ SP :: (OB ++ SP :: (concat (map (fun j => dec j ++ [SP]) l) ++ (CB ++ SP :: r)))) by (rewrite <- !app_assoc; reflexivity).
  rewrite E, flds_clean_sp by exact W. rewrite flds_clean_sp by apply ob_clean. rewrite flds_map by apply dec_clean. rewrite flds_clean_sp by apply cb_clean.
  unfold item_fields. cbn [fst snd app]. rewrite <- app_assoc. reflexivity.
Qed.
Definition line_of (its : list (str * list nat)) : str := concat (map (fun p => links_text (fst p) (snd p)) its).
Lemma line_fields : forall its, Forall (fun p => clean (fst p)) its -> flds (line_of its) = concat (map item_fields its).
Proof. induction its as [|[w l] its IH]; intros F; [reflexivity|]. inversion F; subst. cbn [line_of map concat fst snd]. rewrite links_fields by assumption. fold (line_of its). now rewrite IH. Qed.
Lemma giza_line_ok : forall ns m, length ns <= S (wI m) -> giza_line ns m = Some (line_of (items_of ns m)).
Proof.
  intros ns m H. unfold giza_line. rewrite (proj2 (Nat.leb_le _ _) H). cbn [orb]. f_equal. destruct ns as [|n s]; [reflexivity|]. unfold line_of. cbn [items_of map concat fst snd]. rewrite map_map. reflexivity.
Qed.
Lemma links_good : forall w l, clean w -> good_line (links_text w l).
Proof.
  intros w l W. unfold links_text. change (T " ({ ") with ([SP] ++ OB ++ [SP]). change (T "}) ") with (CB ++ [SP]). repeat apply good_app; try apply good_sp; try (apply good_clean; first [exact W|apply ob_clean|apply cb_clean]). apply good_map, dec_clean.
Qed.
Lemma line_good : forall its, Forall (fun p => clean (fst p)) its -> good_line (line_of its).
Proof. induction its as [|[w l] its IH]; intros F; [split; cbn; tauto|]. inversion F; subst. cbn [line_of map concat fst snd]. apply good_app; [now apply links_good|now apply IH]. Qed.
Lemma items_clean : forall ns m, Forall plain ns -> Forall (fun p => clean (fst p)) (items_of ns m).
Proof. intros ns m F. apply Forall_forall. intros p H. rewrite Forall_forall in F. apply plain_clean, F. rewrite <- (items_words ns m). now apply in_map. Qed.

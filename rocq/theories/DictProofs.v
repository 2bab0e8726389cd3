From Coq Require Import Ascii String ZArith QArith List Bool Arith Lia.
From Verif Require Import TextSpec TextModel VocabSpec VocabModel GfmtModel PmText DescSpec DescModel DescProofs EcModel DictSpec DictModel.
Import ListNotations.
Local Open Scope nat_scope.
Section MAPS.
Context {K V : Type}.
Variable keq : forall a b : K, {a = b} + {a <> b}.
Lemma mget_mput (m : list (K * V)) k v k' : mget keq (mput keq m k v) k' = if keq k k' then Some v else mget keq m k'.
Proof.
  induction m as [|[a x] m IH]; cbn; [reflexivity|]. destruct (keq a k) as [->|N]; cbn.
  - destruct (keq k k'); reflexivity.
  - rewrite IH. destruct (keq a k'), (keq k k'); congruence.
Qed.
Lemma mget_in (m : list (K * V)) k : (exists v, mget keq m k = Some v) <-> In k (map fst m).
Proof.
  induction m as [|[a x] m IH]; cbn; [split; [intros [? H]; discriminate|intros []]|]. destruct (keq a k) as [->|N]; [split; eauto|].
  rewrite IH. split; [auto|]. intros [H|H]; [contradiction|exact H].
Qed.
Lemma mput_nodup (m : list (K * V)) k v : NoDup (map fst m) -> NoDup (map fst (mput keq m k v)).
Proof.
  induction m as [|[a x] m IH]; cbn; intro H; [constructor; [intros []|constructor]|]. inversion H as [|? ? H1 H2]; subst. destruct (keq a k) as [->|N]; cbn; constructor; auto.
  intro C. apply mget_in in C. destruct C as [w C]. rewrite mget_mput in C. destruct (keq k a); [congruence|]. apply H1. apply mget_in. eauto.
Qed.
End MAPS.
Lemma lookup_add {V} (d : dict V) s t v s' t' : lookup (addEntry d s t v) s' t' = if phrase_dec s s' then (if phrase_dec t t' then Some v else lookup d s' t') else lookup d s' t'.
Proof.
  unfold lookup, addEntry. destruct (mget phrase_dec d s) as [e|] eqn:E; rewrite mget_mput; destruct (phrase_dec s s') as [->|N]; try reflexivity.
  - rewrite E, mget_mput. reflexivity.
  - rewrite E. cbn. reflexivity.
Qed.
Definition nodups {V} (d : dict V) : Prop := forall s e, mget phrase_dec d s = Some e -> NoDup (map fst e).
Lemma nodups_add {V} (d : dict V) s t v : nodups d -> nodups (addEntry d s t v).
Proof.
  intros H s' e'. unfold addEntry. destruct (mget phrase_dec d s) as [e|] eqn:E; rewrite mget_mput; destruct (phrase_dec s s'); intro G; try (now apply (H _ _ G)).
  - injection G as <-. apply mput_nodup. now apply (H _ _ E).
  - injection G as <-. cbn. constructor; [intros []|constructor].
Qed.
Lemma options_in {V} (d : dict V) s t : In t (transOptions d s) <-> exists v, lookup d s t = Some v.
Proof.
  unfold transOptions, lookup. destruct (mget phrase_dec d s); [symmetry; apply mget_in|]. split; [intros []|intros [? H]; discriminate].
Qed.
Lemma options_nodup {V} (d : dict V) s : nodups d -> NoDup (transOptions d s).
Proof. intro H. unfold transOptions. destruct (mget phrase_dec d s) eqn:E; [now apply (H _ _ E)|constructor]. Qed.
Definition put_all {V} (es : list (list str * list str * V)) (d : dict V) : dict V := fold_left (fun d e => let '(s, t, v) := e in addEntry d s t v) es d.
Lemma put_all_ok {V} (es : list (list str * list str * V)) : forall d, nodups d -> nodups (put_all es d) /\
  forall s t, lookup (put_all es d) s t = fold_left (fun a e => let '(s', t', v) := e in if phrase_dec s' s then (if phrase_dec t' t then Some v else a) else a) es (lookup d s t).
Proof.
  induction es as [|[[s0 t0] v0] es IH]; intros d H; [split; [exact H|reflexivity]|]. destruct (IH (addEntry d s0 t0 v0)) as [A B]; [now apply nodups_add|].
  split; [exact A|]. intros s t. cbn [put_all fold_left]. fold (put_all es (addEntry d s0 t0 v0)). rewrite B, lookup_add. reflexivity.
Qed.
Lemma put_all_new {V} (es : list (list str * list str * V)) s : NoDup (transOptions (put_all es []) s) /\
  (forall t, lookup (put_all es []) s t = latest phrase_dec es s t) /\ (forall t, In t (transOptions (put_all es []) s) <-> latest phrase_dec es s t <> None).
Proof.
  destruct (put_all_ok es []) as [A B]; [intros ? ? H; discriminate|]. split; [now apply options_nodup|]. assert (L : forall t, lookup (put_all es []) s t = latest phrase_dec es s t) by (intro t; apply B).
  split; [exact L|]. intro t. rewrite options_in, L. destruct (latest phrase_dec es s t); [split; [congruence|eauto]|split; [intros [? H]; discriminate|congruence]].
Qed.
(** ** lines *)
Lemma scan_ok l : forall a n i acc rest, skipn i (flds l) = a ++ BARS :: rest -> length a < n -> ~ In BARS a -> scan n l (S i) acc = (acc ++ a, S i + length a).
Proof.
  induction a as [|w a IH]; intros n i acc rest E L N; (destruct n as [|n]; [cbn in L; lia|]); cbn [scan]; rewrite NFv_flds.
  - assert (i < length (flds l)) by (destruct (le_lt_dec (length (flds l)) i); [rewrite skipn_all2 in E by lia; discriminate|lia]).
    replace (S i <=? length (flds l)) with true by (symmetry; apply Nat.leb_le; lia). rewrite fld_S.
    assert (K : nth i (flds l) [] = BARS) by (rewrite <- (firstn_skipn i (flds l)), E; cbn [app]; rewrite app_nth2; rewrite firstn_length, Nat.min_l by lia; [now rewrite Nat.sub_diag|lia]).
    rewrite K, isw_refl, app_nil_r. f_equal. cbn. lia.
  - assert (i < length (flds l)) by (destruct (le_lt_dec (length (flds l)) i); [rewrite skipn_all2 in E by lia; discriminate|lia]).
    replace (S i <=? length (flds l)) with true by (symmetry; apply Nat.leb_le; lia). rewrite fld_S.
    assert (K : nth i (flds l) [] = w) by (rewrite <- (firstn_skipn i (flds l)), E; cbn [app]; rewrite app_nth2; rewrite firstn_length, Nat.min_l by lia; [now rewrite Nat.sub_diag|lia]).
    rewrite K. replace (isw w BARS) with false by (symmetry; apply isw_false; intro; apply N; now left).
    rewrite (IH n (S i) _ rest).
    + rewrite <- app_assoc. cbn. f_equal. lia.
    + change (S i) with (1 + i). rewrite Nat.add_comm. clear - E. revert i E. generalize (flds l). intros L i. revert L. induction i as [|i IH]; intros L E; [cbn in E; subst; reflexivity|]. destruct L; [cbn in E; discriminate|]. cbn [Nat.add skipn] in *. now apply IH.
    + cbn in L. lia.
    + intro; apply N; now right.
Qed.
Lemma extract_ok l s t q : line_of atofq l (s, t, q) -> extractEntryInfo l = (true, s, t, Some q).
Proof.
  intros (num & E & Ns & Nt & A). change (flds_of l) with (flds l) in E. unfold extractEntryInfo. change bars with BARS in *.
  assert (NF : NFv l = length s + length t + 3) by (rewrite NFv_flds, E; rewrite app_length; cbn [length]; rewrite app_length; cbn; lia).
  rewrite (scan_ok l s (S (NFv l)) 0 [] (t ++ [BARS; num])); [|cbn; exact E|lia|exact Ns]. cbn [app].
  replace (1 + length s =? NFv l) with false by (symmetry; apply Nat.eqb_neq; lia).
  rewrite (scan_ok l t (S (NFv l)) (1 + length s) [] [num]); [|rewrite E, skipn_app, skipn_all2 by lia; replace (1 + length s - length s) with 1 by lia; reflexivity|lia|exact Nt]. cbn [app].
  replace (0 <? NFv l) with true by (symmetry; apply Nat.ltb_lt; lia).
  replace (S (1 + length s) + length t =? NFv l - 1) with true by (symmetry; apply Nat.eqb_eq; lia). cbn [negb orb].
  assert (F : fld l (NFv l) = num). { rewrite NF. replace (length s + length t + 3) with (S (length s + length t + 2)) by lia. rewrite fld_S, E, app_nth2 by lia.
    replace (length s + length t + 2 - length s) with (S (S (length t))) by lia. cbn [nth]. rewrite app_nth2 by lia. replace (S (length t) - length t) with 1 by lia. reflexivity. }
  rewrite F, A. reflexivity.
Qed.
Lemma load_ok f es : Forall2 (line_of atofq) (file_lines f) es -> loadDict (Some f) = Some (put_all (map (fun e => (fst e, Some (snd e))) es) []).
Proof.
  intro H. unfold loadDict. f_equal. unfold put_all. generalize (@nil (list str * list (list str * option Q))). induction H as [|l [[s t] q] ls es H1 H2 IH]; intro d; [reflexivity|].
  cbn [fold_left map fst snd]. rewrite (extract_ok l s t q H1). apply IH.
Qed.
Lemma latest_some {V} (es : list (list str * list str * V)) s t : latest phrase_dec (map (fun e => (fst e, Some (snd e))) es) s t = option_map Some (latest phrase_dec es s t).
Proof.
  unfold latest. change (@None (option V)) with (option_map (@Some V) None). generalize (@None V). induction es as [|[[s' t'] v] es IH]; intro a; [reflexivity|]. cbn [map fold_left fst snd].
  destruct (phrase_dec s' s); [destruct (phrase_dec t' t)|]; rewrite <- IH; reflexivity.
Qed.
(** ** histories *)
Fixpoint since_clear (h : list dcall) (acc : list (list str * list str * (Q * str))) : list (list str * list str * (Q * str)) :=
  match h with [] => acc | DClear :: r => since_clear r [] | DAdd s t q i :: r => since_clear r (acc ++ [(s, t, (q, i))]) end.
Lemma history_put h : forall acc, fold_left dstep h (put_all acc []) = put_all (since_clear h acc) [].
Proof.
  induction h as [|[s t q i|] h IH]; intro acc; [reflexivity| |].
  - cbn [fold_left dstep since_clear]. rewrite <- IH. unfold put_all at 2. rewrite fold_left_app. reflexivity.
  - cbn [fold_left dstep since_clear]. rewrite <- IH. reflexivity.
Qed.

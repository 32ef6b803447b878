(** The tensors of spiders, and the tensordot with Hadamard matrices *)
From Coq Require Import Reals ZArith QArith Qcanon List Bool Arith Lia Permutation FunctionalExtensionality.
From Verif Require Import CNum Base ScalarModel GraphModel RulesModel GraphSem SumLemmas RuleLemmas TensorModel TensorNp.
Import ListNotations.
Open Scope nat_scope.

Lemma fill_last : forall a k cs fs, length fs = a -> length cs = k -> fill (a + k) (seq a k) cs fs = fs ++ cs.
Proof.
  intros a k cs fs A K. assert (R : inr (a + k) (seq a k)) by (split; [apply seq_NoDup|intros p I; apply in_seq in I; lia]).
  apply nth_ext with (d := false) (d' := false); [rewrite fill_len, app_length; lia|]. intros p H. rewrite fill_len in H. destruct (lt_dec p a) as [L|L].
  - rewrite app_nth1 by lia. assert (E := fill_fr (a + k) (seq a k) cs fs p). rewrite free_last, seq_length in E. specialize (E L). rewrite seq_nth in E; auto.
  - rewrite app_nth2 by lia. assert (E := fill_ax (a + k) (seq a k) cs fs (p - a) R). rewrite seq_length in E. rewrite seq_nth in E by lia. replace (a + (p - a)) with p in E by lia. rewrite E by lia. f_equal. lia.
Qed.
Lemma fill_first : forall a k cs fs, length cs = a -> length fs = k -> fill (a + k) (seq 0 a) cs fs = cs ++ fs.
Proof.
  intros a k cs fs A K. assert (R : inr (a + k) (seq 0 a)) by (split; [apply seq_NoDup|intros p I; apply in_seq in I; lia]).
  apply nth_ext with (d := false) (d' := false); [rewrite fill_len, app_length; lia|]. intros p H. rewrite fill_len in H. destruct (lt_dec p a) as [L|L].
  - rewrite app_nth1 by lia. assert (E := fill_ax (a + k) (seq 0 a) cs fs p R). rewrite seq_length in E. specialize (E L). rewrite seq_nth in E; auto.
  - rewrite app_nth2 by lia. assert (E := fill_fr (a + k) (seq 0 a) cs fs (p - a)). rewrite free_first, seq_length in E. rewrite seq_nth in E by lia. replace (a + (p - a)) with p in E by lia. rewrite E by lia. f_equal. lia.
Qed.

(** the weight of a leg: X spiders have a Hadamard on each leg *)
Definition lw (X : bool) (a b : bool) : C := if X then (sq2p (-1) * sgn (a && b))%C else dlt a b.
Fixpoint prodf (fs : list (bool -> bool -> C)) (b : bool) (ix : list bool) : C :=
  match fs, ix with f :: fs, i :: ix => (f b i * prodf fs b ix)%C | _, _ => C1 end.
Definition sform (t : tensor) (h : bool -> C) (fs : list (bool -> bool -> C)) : Prop :=
  tshape t = repeat 2 (length fs) /\
  forall ix, length ix = length fs -> tent t ix = (h false * prodf fs false ix + h true * prodf fs true ix)%C.
Lemma prodf_app : forall f1 f2 b i1 i2, length i1 = length f1 -> prodf (f1 ++ f2) b (i1 ++ i2) = (prodf f1 b i1 * prodf f2 b i2)%C.
Proof. induction f1 as [|f f1 IH]; intros f2 b [|i i1] i2 H; try discriminate; cbn [app prodf]; [ring|]. rewrite IH by (cbn in H; lia). ring. Qed.
Lemma prodf_repeat : forall f b ix, prodf (repeat f (length ix)) b ix = cprod (f b) ix.
Proof. induction ix as [|i ix IH]; cbn; auto. rewrite IH. auto. Qed.
Lemma prodf_seq : forall fs b ix, length ix = length fs -> prodf fs b ix = cprod (fun k => nth k fs dlt b (nth k ix false)) (seq 0 (length fs)).
Proof.
  induction fs as [|f fs IH]; intros b [|i ix] H; try discriminate; auto. cbn [prodf length seq cprod nth]. rewrite <- seq_shift, cprod_map. cbn [nth]. rewrite IH by (cbn in H; lia). auto.
Qed.

Lemma prod_dlt : forall b ix, cprod (dlt b) ix = if forallb (Bool.eqb b) ix then C1 else C0.
Proof. induction ix as [|i ix IH]; auto. cbn [cprod forallb]. rewrite IH. unfold dlt. destruct (Bool.eqb b i); cbn [andb]; destruct (forallb (Bool.eqb b) ix); ring. Qed.
Lemma prod_had : forall b ix, cprod (fun i => (sq2p (-1) * sgn (b && i))%C) ix = (sq2p (- Z.of_nat (length ix)) * sgn (b && Nat.odd (length (filter (fun i => i) ix))))%C.
Proof.
  induction ix as [|i ix IH]; [cbn; rewrite sq2p_0, andb_false_r; unfold sgn; ring|]. cbn [cprod length filter]. rewrite IH.
  replace (- Z.of_nat (S (length ix)))%Z with (-1 + - Z.of_nat (length ix))%Z by lia. rewrite sq2p_add. destruct i; cbn [length].
  - rewrite Nat.odd_succ, <- Nat.negb_odd. destruct b, (Nat.odd (length (filter (fun i => i) ix))); cbn [andb negb]; unfold sgn; ring.
  - rewrite andb_false_r. unfold sgn at 1. ring.
Qed.
Lemma z_form : forall d p, sform (Z_to_tensor d p) (ephase p) (repeat (lw false) d).
Proof.
  intros d p. split; [rewrite repeat_length; auto|]. intros ix H. rewrite repeat_length in H. subst d. rewrite !prodf_repeat. unfold lw. change (fun a b => dlt a b) with dlt. rewrite !prod_dlt. cbn [Z_to_tensor tent].
  replace (forallb (Bool.eqb true) ix) with (forallb (fun b => b) ix) by (clear; induction ix as [|[] ix IH]; cbn; auto).
  replace (forallb (Bool.eqb false) ix) with (forallb negb ix) by (clear; induction ix as [|[] ix IH]; cbn; auto).
  destruct ix as [|[] ix]; cbn [length Nat.eqb forallb andb negb]; unfold ephase; [ring| |]; destruct (forallb _ ix); ring.
Qed.
Lemma x_form : forall d p, d <> 0 -> sform (X_to_tensor d p) (ephase p) (repeat (lw true) d).
Proof.
  intros d p N. unfold X_to_tensor. rewrite (proj2 (Nat.eqb_neq d 0) N). split; [rewrite repeat_length; auto|]. intros ix H. rewrite repeat_length in H. subst d. rewrite !prodf_repeat. unfold lw. rewrite !prod_had.
  cbn [tent]. rewrite <- Nat.negb_odd. unfold ephase. destruct (Nat.odd (length (filter (fun b => b) ix))); cbn [negb andb]; unfold sgn; ring.
Qed.
Lemma id_form : sform t_id2 (fun _ => C1) (repeat (lw false) 2).
Proof. split; auto. intros [|a [|b [|]]] H; try discriminate. cbn. unfold dlt. destruct a, b; cbn; ring. Qed.

(** *** a Hadamard matrix at the first leg *)
Definition hc (f : bool -> bool -> C) (b c : bool) : C := (f b false * lw true false c + f b true * lw true true c)%C.
Lemma hc_lw : forall X, hc (lw X) = lw (negb X).
Proof.
  intros X. apply functional_extensionality. intros b. apply functional_extensionality. intros c. unfold hc, lw.
  assert (E : (sq2p (-1) * sq2p (-1) * (C1 + C1))%C = C1) by (rewrite <- sq2p_add; replace (C1 + C1)%C with (sq2p 2) by apply sq2p_2; rewrite <- sq2p_add; apply sq2p_0).
  destruct X, b, c; unfold dlt, sgn; cbn [andb negb Bool.eqb]; first [ring | transitivity (sq2p (-1) * sq2p (-1) * (C1 + C1))%C; [ring|exact E]].
Qed.
Lemma nth_repeat2 : forall d p, p < d -> nth p (repeat 2 d) 0 = 2.
Proof. induction d as [|d IH]; intros [|p] H; cbn; auto; try lia. apply IH. lia. Qed.
Lemma shape_repeat : forall axes d, (forall p, In p axes -> p < d) -> map (fun p => nth p (repeat 2 d) 0) axes = repeat 2 (length axes).
Proof. induction axes as [|a axes IH]; intros d H; auto. cbn. rewrite nth_repeat2 by (apply H; left; auto). rewrite IH; auto. intros; apply H; right; auto. Qed.
Lemma axes_ok2 : forall t d axes, tshape t = repeat 2 d -> inr d axes -> axes_ok t axes = true.
Proof.
  intros t d axes E [N H]. unfold axes_ok. rewrite (proj2 (distinct_nodup _) N). cbn [andb]. apply forallb_forall. intros p I. rewrite E, nth_repeat2 by auto. auto.
Qed.
Lemma repeat_snoc : forall (n : nat), repeat 2 n ++ [2] = repeat 2 (S n).
Proof. induction n; cbn; [|rewrite IHn]; auto. Qed.
Lemma had_step : forall t h f fs, sform t h (f :: fs) -> exists t', tensordot t t_had [0] [0] = Ok t' /\ sform t' h (fs ++ [hc f]).
Proof.
  intros t h f fs [S E]. set (d := length fs). unfold tensordot. 
  assert (AX : axes_ok t [0] = true).
  { apply (axes_ok2 t (length (f :: fs))); [exact S|]. split; [constructor; [intros []|constructor]|]. intros p I. cbn in I. destruct I as [<-|[]]. cbn. lia. }
  rewrite AX.
  change (axes_ok t_had [0]) with true. cbn [andb length Nat.eqb]. eexists. split; [reflexivity|].
  assert (R : rank t = 1 + d) by (unfold rank; rewrite S, repeat_length; auto). rewrite R. change [0] with (seq 0 1). rewrite free_first, seq_length.
  assert (R2 : rank t_had = 1 + 1) by auto. rewrite R2. rewrite (free_first 1 1). split.
  - cbn [tshape]. unfold shape_at. rewrite S, shape_repeat by (intros p I; apply in_seq in I; cbn; lia). rewrite seq_length, app_length. cbn [length]. rewrite Nat.add_1_r. apply repeat_snoc.
  - intros ix H. rewrite app_length in H. cbn [length] in H. cbn [tent bitsum].
    set (i1 := firstn d ix). set (i2 := skipn d ix). assert (L1 : length i1 = d) by (unfold i1; rewrite firstn_length; lia). assert (L2 : length i2 = 1) by (unfold i2; rewrite skipn_length; lia).
    assert (EI : ix = i1 ++ i2) by (symmetry; apply firstn_skipn). destruct i2 as [|e [|]]; try discriminate. rewrite EI.
    rewrite !(fill_first 1 d) by auto. rewrite !(fill_first 1 1) by auto. cbn [app]. rewrite !E by (cbn; lia). cbn [t_had bits2 tent nth].
    rewrite !prodf_app by auto. cbn [prodf]. unfold hc, lw. ring.
Qed.
Lemma hads_form : forall n X d t h k, sform t h (repeat (lw X) (n + d) ++ repeat (lw (negb X)) k) -> exists t', hads n t = Ok t' /\ sform t' h (repeat (lw X) d ++ repeat (lw (negb X)) (n + k)).
Proof.
  induction n as [|n IH]; intros X d t h k F; [exists t; auto|]. unfold hads. cbn [repeat foldM]. cbn [plus repeat app] in F.
  destruct (had_step _ _ _ _ F) as [t1 [-> F1]]. cbn [bind]. rewrite hc_lw in F1. rewrite <- app_assoc in F1.
  assert (E : repeat (lw (negb X)) k ++ [lw (negb X)] = repeat (lw (negb X)) (S k)) by (clear; induction k; cbn; [|rewrite IHk]; auto). rewrite E in F1.
  destruct (IH X d t1 h (S k) F1) as [t' [A B]]. exists t'. split; auto. rewrite Nat.add_succ_r in B. exact B.
Qed.
Lemma hads_ok : forall n X d t h, n <= d -> sform t h (repeat (lw X) d) -> exists t', hads n t = Ok t' /\ sform t' h (repeat (lw X) (d - n) ++ repeat (lw (negb X)) n).
Proof.
  intros n X d t h L F. destruct (hads_form n X (d - n) t h 0) as [t' [A B]]; [replace (n + (d - n)) with d by lia; cbn [repeat]; rewrite app_nil_r; auto|]. rewrite Nat.add_0_r in B. eauto.
Qed.

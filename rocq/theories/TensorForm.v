(** The meaning of an intermediate tensor and one contraction *)
From Coq Require Import Reals ZArith QArith Qcanon List Bool Arith Lia Permutation FunctionalExtensionality.
From Verif Require Import CNum Base ScalarModel ScalarProofs GraphModel RulesModel GraphSem SumLemmas GraphProofs RuleLemmas GraphAlgProofs TensorModel TensorNp TensorSpider TensorPos.
Import ListNotations.
Open Scope nat_scope.

Definition legw (g : graph) (l : label) (x : assignment) (b : bool) : C :=
  match l with Inp i => dlt (x (nth i (ginputs g) 0)) b | Leg v => lw (isX g v) (x v) b end.
Definition legs (g : graph) (L : list label) (ix : list bool) (x : assignment) : C :=
  cprod (fun k => legw g (lab L k) x (nth k ix false)) (seq 0 (length L)).
Lemma seq_plus : forall k n, seq k n = map (plus k) (seq 0 n).
Proof. intros k n. revert k. induction n as [|n IH]; intros k; auto. cbn [seq map]. rewrite Nat.add_0_r. f_equal. rewrite IH, (IH 1), map_map. apply map_ext. intros; lia. Qed.
Lemma legs_app : forall g L1 L2 i1 i2 x, length i1 = length L1 -> legs g (L1 ++ L2) (i1 ++ i2) x = (legs g L1 i1 x * legs g L2 i2 x)%C.
Proof.
  intros g L1 L2 i1 i2 x E. unfold legs. rewrite app_length, seq_app, cprod_app. f_equal.
  - apply cprod_ext. intros k K. apply in_seq in K. unfold lab. rewrite !app_nth1 by lia. auto.
  - cbn [plus]. rewrite (seq_plus (length L1)), cprod_map. apply cprod_ext. intros k K. unfold lab. rewrite !app_nth2 by lia. rewrite <- E, !(Nat.add_comm (length i1)), !Nat.add_sub. auto.
Qed.
Lemma legs_repeat : forall g v m i x, length i = m -> legs g (repeat (Leg v) m) i x = prodf (repeat (lw (isX g v)) m) (x v) i.
Proof.
  intros g v m i x E. rewrite prodf_seq by (rewrite repeat_length; auto). unfold legs. rewrite !repeat_length. apply cprod_ext. intros k K. apply in_seq in K. unfold lab.
  assert (A : nth k (repeat (Leg v) m) (Inp 0) = Leg v) by (apply (repeat_spec m); apply nth_In; rewrite repeat_length; lia).
  assert (B : nth k (repeat (lw (isX g v)) m) dlt = lw (isX g v)) by (apply (repeat_spec m); apply nth_In; rewrite repeat_length; lia).
  rewrite A, B. auto.
Qed.

Definition form (g : graph) (T : tensor) (L : list label) (W : list nat) (r : C) : Prop :=
  tshape T = repeat 2 (length L) /\
  forall x0 ix, length ix = length L -> tent T ix = (r * sumv W (fun x => part g W x * legs g L ix x)%C x0)%C.

Lemma rest_len : forall L contr, inr (length L) contr -> length (rest L contr) = length L - length contr.
Proof. intros L contr H. unfold rest. rewrite map_length. assert (E := free_len _ _ H). lia. Qed.
Lemma legs_fill : forall g L contr cs i1 x, inr (length L) contr ->
  legs g L (fill (length L) contr cs i1) x = (cprod (fun j => legw g (lab L (nth j contr 0)) x (nth j cs false)) (seq 0 (length contr)) * legs g (rest L contr) i1 x)%C.
Proof.
  intros g L contr cs i1 x H. unfold legs at 1. rewrite (prod_fill (fun k b => legw g (lab L k) x b)) by auto. f_equal.
  unfold legs, rest. rewrite map_length. apply cprod_ext. intros j J. apply in_seq in J. f_equal. unfold lab at 2. rewrite (nth_indep _ _ (lab L 0)) by (rewrite map_length; lia). rewrite map_nth. auto.
Qed.
Lemma contract : forall g T L W r v t h fs1 fs2 contr Lnew, form g T L W r -> ~ In v W -> sform t h (fs1 ++ fs2) -> inr (length L) contr -> length contr = length fs2 ->
  length Lnew = length fs1 -> (forall x i2, length i2 = length fs1 -> legs g Lnew i2 x = prodf fs1 (x v) i2) ->
  (forall x, part g (v :: W) x = (part g W x * h (x v) * cprod (fun j => legw g (lab L (nth j contr 0)) x false * nth j fs2 dlt (x v) false + legw g (lab L (nth j contr 0)) x true * nth j fs2 dlt (x v) true)%C (seq 0 (length contr)))%C) ->
  exists T', tensordot T t contr (seq (rank t - length contr) (length contr)) = Ok T' /\ form g T' (rest L contr ++ Lnew) (v :: W) r.
Proof.
  intros g T L W r v t h fs1 fs2 contr Lnew [ST ET] NV [Ss Es] R LC LN EN EP.
  assert (RT : rank T = length L) by (unfold rank; rewrite ST, repeat_length; auto).
  assert (Rt : rank t = length fs1 + length fs2) by (unfold rank; rewrite Ss, repeat_length, app_length; auto).
  assert (RL := rest_len L contr R). assert (FL : length (free (length L) contr) = length (rest L contr)) by (unfold rest; rewrite map_length; auto).
  rewrite <- LC in Rt. rewrite Rt. replace (length fs1 + length contr - length contr) with (length fs1) by lia. unfold tensordot.
  rewrite (axes_ok2 T (length L)) by auto. rewrite (axes_ok2 t (length fs1 + length contr) (seq (length fs1) (length contr))).
  2:{ rewrite Ss, app_length, LC. auto. } 2:{ split; [apply seq_NoDup|]. intros p I. apply in_seq in I. lia. }
  rewrite seq_length, Nat.eqb_refl. cbn [andb]. eexists. split; [reflexivity|]. rewrite RT, Rt, free_last. split.
  - cbn [tshape]. unfold shape_at. rewrite ST, Ss, !shape_repeat; [|intros p I; apply in_seq in I; rewrite app_length; lia|intros p I; apply in_free in I; lia].
    rewrite seq_length, FL, <- LN, <- repeat_app, <- app_length. auto.
  - intros x0 ix LI. rewrite app_length in LI. cbn [tent]. rewrite FL.
    set (i1 := firstn (length (rest L contr)) ix). set (i2 := skipn (length (rest L contr)) ix).
    assert (L1 : length i1 = length (rest L contr)) by (unfold i1; rewrite firstn_length; lia). assert (L2 : length i2 = length fs1) by (unfold i2; rewrite skipn_length; lia).
    assert (EI : ix = i1 ++ i2) by (symmetry; apply firstn_skipn). clearbody i1 i2. subst ix.
    assert (K : forall b, bitsum (length contr) (fun cs => (tent T (fill (length L) contr cs i1) * (h b * (prodf fs1 b i2 * prodf fs2 b cs)))%C) =
                          (r * sumv W (fun x => part g (v :: W) x * legs g (rest L contr ++ Lnew) (i1 ++ i2) x)%C (upd x0 v b))%C).
    { intros b. transitivity (bitsum (length contr) (fun cs => sumv W (fun x => (r * (part g W x * legs g L (fill (length L) contr cs i1) x * (h b * (prodf fs1 b i2 * prodf fs2 b cs))))%C) (upd x0 v b))).
      - apply bitsum_ext. intros cs LCs. rewrite (ET (upd x0 v b)) by apply fill_len. rewrite sumv_scal, <- Cmult_assoc. f_equal. rewrite Cmult_comm, <- sumv_scal. apply sumv_ext. intros y. ring.
      - rewrite bitsum_sumv, <- sumv_scal. apply sumv_ext_on. intros y Y. assert (YV : y v = b) by (rewrite Y by auto; unfold upd; rewrite Nat.eqb_refl; auto).
        rewrite bitsum_scal. f_equal. rewrite EP, YV, legs_app, EN, YV by auto.
        transitivity (bitsum (length contr) (fun cs => (part g W y * h b * legs g (rest L contr) i1 y * prodf fs1 b i2 * cprod (fun j => (legw g (lab L (nth j contr 0)) y (nth j cs false) * nth j fs2 dlt b (nth j cs false))%C) (seq 0 (length contr)))%C)).
        + apply bitsum_ext. intros cs LCs. rewrite legs_fill, (prodf_seq fs2) by (auto; lia). rewrite <- LC, cprod_mult. ring.
        + rewrite bitsum_scal, (bitsum_prod _ (fun j c => (legw g (lab L (nth j contr 0)) y c * nth j fs2 dlt b c)%C)). ring. }
    cbn [sumv]. transitivity (r * sumv W (fun x => part g (v :: W) x * legs g (rest L contr ++ Lnew) (i1 ++ i2) x)%C (upd x0 v false) + r * sumv W (fun x => part g (v :: W) x * legs g (rest L contr ++ Lnew) (i1 ++ i2) x)%C (upd x0 v true))%C; [|ring].
    rewrite <- !K, <- bitsum_plus. apply bitsum_ext. intros cs LCs. rewrite (fill_last (length fs1) (length contr)) by auto. rewrite Es by (rewrite !app_length; lia). rewrite !prodf_app by auto. ring.
Qed.
(** a wire *)
Lemma wire : forall g u v a b e, edge_type g v u = Some e ->
  (lw (isX g u) a false * lw (xorb (isX g v) (match e with HADAMARD => true | _ => false end)) b false + lw (isX g u) a true * lw (xorb (isX g v) (match e with HADAMARD => true | _ => false end)) b true)%C = ew g v u b a.
Proof.
  intros g u v a b e H. unfold ew. rewrite H. cbn [option_map].
  assert (E : (sq2p (-1) * sq2p (-1) * (C1 + C1))%C = C1) by (rewrite <- sq2p_add; replace (C1 + C1)%C with (sq2p 2) by apply sq2p_2; rewrite <- sq2p_add; apply sq2p_0).
  destruct e, (isX g u), (isX g v), a, b; cbn [xorb tog toggle_edge wt]; unfold lw, dlt, sgn; cbn [andb negb Bool.eqb]; first [ring | transitivity (sq2p (-1) * sq2p (-1) * (C1 + C1))%C; [ring|exact E]].
Qed.

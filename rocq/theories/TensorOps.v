(** tensor_to_matrix, compose_tensors, adjoint, compare_tensors and find_scalar_correction *)
From Coq Require Import Reals ZArith QArith Qcanon List Bool Arith Lia Lra Permutation FunctionalExtensionality.
From Verif Require Import CNum Base ScalarModel ScalarProofs GraphModel RulesModel GraphSem SumLemmas GraphProofs RuleLemmas TotalProofs GraphAlgProofs TensorModel TensorNp TensorSpider TensorPos TensorForm TensorStep TensorProofs.
Import ListNotations.
Open Scope nat_scope.

Lemma zbin_len : forall n x, length (zbin n x) = n.
Proof. induction n as [|n IH]; intros x; cbn; auto. rewrite app_length, IH. cbn. lia. Qed.
(** the value of a list of bits, most significant first *)
Fixpoint bval (l : list bool) : nat := match l with [] => 0 | b :: l => (if b then 2 ^ length l else 0) + bval l end.
Lemma bval_snoc : forall l b, bval (l ++ [b]) = 2 * bval l + (if b then 1 else 0).
Proof. induction l as [|a l IH]; intros b; cbn [app bval]; [destruct b; auto|]. rewrite IH, app_length. cbn [length]. rewrite Nat.add_1_r. cbn [Nat.pow]. destruct a, b; lia. Qed.
Lemma bval_lt : forall l, bval l < 2 ^ length l.
Proof. induction l as [|b l IH]; cbn [bval length Nat.pow]; [lia|]. destruct b; lia. Qed.
Lemma zbin_bval : forall l, zbin (length l) (bval l) = l.
Proof.
  induction l as [|b l IH] using rev_ind; auto. rewrite bval_snoc, app_length. cbn [length]. rewrite Nat.add_1_r. cbn [zbin].
  assert (D : Nat.div2 (2 * bval l + (if b then 1 else 0)) = bval l) by (destruct b; [rewrite Nat.add_1_r; apply Nat.div2_succ_double|rewrite Nat.add_0_r; apply Nat.div2_double]).
  assert (O : Nat.odd (2 * bval l + (if b then 1 else 0)) = b). { rewrite Nat.odd_add, Nat.odd_mul. destruct b; auto. }
  rewrite D, O, IH. auto.
Qed.
Lemma matrix_entry : forall t i o bi bo, length bi = i -> length bo = o -> nth (bval bi) (nth (bval bo) (tensor_to_matrix t i o) []) C0 = tent t (bo ++ bi).
Proof.
  intros t i o bi bo Hi Ho. unfold tensor_to_matrix. rewrite nth_ms by (rewrite <- Ho; apply bval_lt). rewrite nth_ms by (rewrite <- Hi; apply bval_lt). rewrite <- Hi, <- Ho, !zbin_bval. auto.
Qed.
Lemma matrix_size : forall t i o, length (tensor_to_matrix t i o) = 2 ^ o /\ forall r, In r (tensor_to_matrix t i o) -> length r = 2 ^ i.
Proof.
  intros. unfold tensor_to_matrix. rewrite map_length, seq_length. split; auto. intros r H. apply in_map_iff in H. destruct H as [k [<- _]]. rewrite map_length, seq_length. auto.
Qed.

(** swapping the halves *)
Lemma inr_swap : forall q, inr (q + q) (seq q q ++ seq 0 q).
Proof.
  intros q. split; [apply RuleLemmas.nodup_app; try apply seq_NoDup; intros p A B; apply in_seq in A, B; lia|]. intros p I. apply in_app_iff in I. rewrite !in_seq in I. lia.
Qed.
Lemma fill_swap : forall q a b, length a = q -> length b = q -> fill (q + q) (seq q q ++ seq 0 q) (a ++ b) [] = b ++ a.
Proof.
  intros q a b A B. assert (R := inr_swap q). apply nth_ext with (d := false) (d' := false); [rewrite fill_len, app_length; lia|]. intros p H. rewrite fill_len in H. destruct (lt_dec p q) as [L|L].
  - assert (E := fill_ax (q + q) (seq q q ++ seq 0 q) (a ++ b) [] (q + p) R). rewrite app_length, !seq_length in E. rewrite app_nth2 in E by (rewrite seq_length; lia). rewrite seq_length, seq_nth in E by lia.
    replace (0 + (q + p - q)) with p in E by lia. rewrite E by lia. rewrite app_nth2, app_nth1 by lia. f_equal. lia.
  - assert (E := fill_ax (q + q) (seq q q ++ seq 0 q) (a ++ b) [] (p - q) R). rewrite app_length, !seq_length in E. rewrite app_nth1 in E by (rewrite seq_length; lia). rewrite seq_nth in E by lia.
    replace (q + (p - q)) with p in E by lia. rewrite E by lia. rewrite app_nth1, app_nth2 by lia. f_equal. lia.
Qed.
Lemma transpose_swap : forall t q, tshape t = repeat 2 (q + q) -> exists t', transpose t (seq q q ++ seq 0 q) = Ok t' /\ tshape t' = repeat 2 (q + q) /\
  forall a b, length a = q -> length b = q -> tent t' (a ++ b) = tent t (b ++ a).
Proof.
  intros t q S. assert (R := inr_swap q). assert (RT : rank t = q + q) by (unfold rank; rewrite S, repeat_length; auto). unfold transpose. rewrite RT, app_length, !seq_length, Nat.eqb_refl, (proj2 (distinct_nodup _) (proj1 R)). cbn [andb].
  rewrite (proj2 (forallb_forall _ _)) by (intros p I; apply Nat.ltb_lt; apply R; auto). eexists. split; [reflexivity|]. split.
  - cbn [tshape]. unfold shape_at. rewrite S, shape_repeat by apply R. rewrite app_length, !seq_length. auto.
  - intros a b A B. cbn [tent]. rewrite fill_swap; auto.
Qed.
Lemma div2_dbl : forall q, Nat.div2 (q + q) = q.
Proof. intros. replace (q + q) with (2 * q) by lia. apply Nat.div2_double. Qed.
Lemma adjoint_ok : forall t q, tshape t = repeat 2 (q + q) -> exists t', t_adjoint t = Ok t' /\ tshape t' = repeat 2 (q + q) /\ forall o i, length o = q -> length i = q -> tent t' (o ++ i) = Cconj (tent t (i ++ o)).
Proof.
  intros t q S. unfold t_adjoint. assert (RT : rank t = q + q) by (unfold rank; rewrite S, repeat_length; auto). rewrite RT, div2_dbl.
  destruct (transpose_swap (mkT (tshape t) (fun ix => Cconj (tent t ix))) q S) as [t' [A [B C]]]. exists t'. split; auto.
Qed.
Lemma compose_ok : forall t1 t2 q, tshape t1 = repeat 2 (q + q) -> tshape t2 = repeat 2 (q + q) -> exists t', compose_tensors t1 t2 = Ok t' /\ tshape t' = repeat 2 (q + q) /\
  forall o i, length o = q -> length i = q -> tent t' (o ++ i) = bitsum q (fun m => (tent t2 (o ++ m) * tent t1 (m ++ i))%C).
Proof.
  intros t1 t2 q S1 S2. assert (R1 : rank t1 = q + q) by (unfold rank; rewrite S1, repeat_length; auto). assert (R2 : rank t2 = q + q) by (unfold rank; rewrite S2, repeat_length; auto).
  unfold compose_tensors. rewrite R1, R2, Nat.eqb_refl, div2_dbl. cbn [negb]. unfold tensordot.
  rewrite (axes_ok2 t1 (q + q)), (axes_ok2 t2 (q + q)), !seq_length, Nat.eqb_refl; auto; try (split; [apply seq_NoDup|intros p I; apply in_seq in I; lia]). cbn [andb bind].
  rewrite R1, R2, free_first, free_last. rewrite !seq_length.
  match goal with |- context [transpose ?t _] => set (t0 := t) end.
  destruct (transpose_swap t0 q) as [t' [A [B C]]].
  { unfold t0. cbn [tshape]. unfold shape_at. rewrite S1, S2, !shape_repeat by (intros p I; apply in_seq in I; lia). rewrite !seq_length, repeat_app. auto. }
  exists t'. do 2 (split; [auto|]). intros o i O I. rewrite C by auto. unfold t0. cbn [tent]. apply bitsum_ext. intros m M.
  assert (E1 : firstn q (i ++ o) = i) by (rewrite firstn_app, <- I, firstn_all, Nat.sub_diag; cbn; apply app_nil_r).
  assert (E2 : skipn q (i ++ o) = o) by (rewrite skipn_app, <- I, skipn_all, Nat.sub_diag; auto).
  rewrite E1, E2, fill_first, fill_last by auto. ring.
Qed.

(** ** Comparison *)
Lemma in_all_ix : forall n l, In l (all_ix n) <-> length l = n.
Proof.
  induction n as [|n IH]; intros l; cbn [all_ix].
  - split; [intros [<-|[]]; auto|]. destruct l; [left; auto|discriminate].
  - rewrite in_app_iff, !in_map_iff. split.
    + intros [[m [<- H]]|[m [<- H]]]; apply IH in H; cbn; auto.
    + destruct l as [|b l]; [discriminate|]. intros H. injection H as H. apply IH in H. destruct b; [right|left]; exists l; auto.
Qed.
Definition teq (n : nat) (t1 t2 : tensor) : Prop := forall ix, length ix = n -> tent t1 ix = tent t2 ix.
Lemma bc_same : forall t ix, length ix = rank t -> bc t ix = tent t ix.
Proof. intros t ix H. unfold bc. rewrite H, Nat.sub_diag. auto. Qed.
Lemma allclose_ok : forall t1 t2 n, rank t1 = n -> rank t2 = n -> allclose t1 t2 = true <-> teq n t1 t2.
Proof.
  intros t1 t2 n R1 R2. unfold allclose, teq. rewrite R1, R2, Nat.max_id, forallb_forall. split.
  - intros H ix L. specialize (H ix (proj2 (in_all_ix _ _) L)). rewrite !bc_same in H by congruence. destruct (C_eq_dec _ _); [auto|discriminate].
  - intros H ix I. apply in_all_ix in I. rewrite !bc_same by congruence. destruct (C_eq_dec _ _) as [|N]; [auto|exfalso; auto].
Qed.
Lemma first_nz_some : forall t l i0 i a, first_nz t i0 l = Some (i, a) -> exists ix, i0 <= i /\ nth_error l (i - i0) = Some ix /\ a = tent t ix /\ a <> C0.
Proof.
  induction l as [|x l IH]; intros i0 i a H; [discriminate|]. cbn in H. destruct (C_eq_dec (tent t x) C0) as [E|E].
  - apply IH in H. destruct H as [ix [L [N R]]]. exists ix. split; [lia|]. replace (i - i0) with (S (i - S i0)) by lia. split; auto.
  - injection H as <- <-. exists x. rewrite Nat.sub_diag. do 3 (split; [auto|]). auto.
Qed.
Lemma first_nz_none : forall t l i0, first_nz t i0 l = None <-> forall ix, In ix l -> tent t ix = C0.
Proof.
  induction l as [|x l IH]; intros i0; cbn; [split; auto; intros _ ix []|]. destruct (C_eq_dec (tent t x) C0) as [E|E].
  - rewrite IH. split; [intros H ix [<-|I]; auto|auto].
  - split; [discriminate|]. intros H. exfalso. auto.
Qed.
Lemma flat_same : forall t n i ix, rank t = n -> nth_error (all_ix n) i = Some ix -> flat t i = Ok (tent t ix).
Proof. intros t n i ix R H. unfold flat. rewrite R, H. auto. Qed.
Definition tzero (n : nat) (t : tensor) : Prop := forall ix, length ix = n -> tent t ix = C0.
Lemma compare_scalar : forall t1 t2 n, rank t1 = n -> rank t2 = n -> exists b, compare_tensors t1 t2 true = Ok b /\ (b = true <-> teq n t1 t2).
Proof. intros t1 t2 n R1 R2. unfold compare_tensors. destruct (allclose t1 t2) eqn:A; [exists true|exists false]; split; auto; rewrite <- (allclose_ok t1 t2 n R1 R2), A; tauto. Qed.
Lemma compare_ok : forall t1 t2 n, rank t1 = n -> rank t2 = n ->
  (tzero n t1 /\ ~ tzero n t2 /\ compare_tensors t1 t2 false = Err ValueError) \/
  exists b, compare_tensors t1 t2 false = Ok b /\ (b = true <-> exists c, c <> C0 /\ forall ix, length ix = n -> tent t1 ix = (c * tent t2 ix)%C).
Proof.
  intros t1 t2 n R1 R2. unfold compare_tensors. destruct (allclose t1 t2) eqn:A.
  - right. exists true. split; auto. split; auto. intros _. exists C1. split; [exact C1_neq_C0|]. apply (allclose_ok t1 t2 n R1 R2) in A. intros ix L. rewrite A by auto. ring.
  - rewrite R1. destruct (first_nz t1 0 (all_ix n)) as [[i a]|] eqn:F.
    + right. apply first_nz_some in F. destruct F as [ix [_ [N [-> NZ]]]]. rewrite Nat.sub_0_r in N. rewrite (flat_same t2 n i ix R2 N). cbn [bind]. assert (L := nth_error_In _ _ N). apply in_all_ix in L.
      destruct (C_eq_dec (tent t2 ix) C0) as [E|E].
      * exists false. split; auto. split; [discriminate|]. intros [c [_ H]]. exfalso. apply NZ. rewrite H by auto. rewrite E. ring.
      * eexists. split; [reflexivity|]. rewrite (allclose_ok _ _ n) by auto. unfold teq. cbn [tscale tent]. split.
        -- intros H. exists (tent t1 ix * / tent t2 ix)%C. split.
           ++ intros Q. apply NZ. transitivity (tent t1 ix * / tent t2 ix * tent t2 ix)%C; [field; auto|]. rewrite Q. ring.
           ++ intros jx Lj. specialize (H jx Lj). transitivity (tent t1 ix * (/ tent t1 ix * tent t1 jx))%C; [field; auto|]. rewrite H. field; auto.
        -- intros [c [NC H]] jx Lj. assert (H1 := H ix L). rewrite (H jx Lj), H1. field. split; auto.
    + left. rewrite first_nz_none in F. assert (Z1 : tzero n t1) by (intros ix L; apply F, in_all_ix; auto). split; auto. split; auto.
      intros Z2. assert (X : allclose t1 t2 = true) by (apply (allclose_ok t1 t2 n R1 R2); intros ix L; rewrite Z1, Z2; auto). congruence.
Qed.
Lemma find_ok : forall t1 t2 n c, rank t1 = n -> rank t2 = n -> (forall ix, length ix = n -> tent t1 ix = (c * tent t2 ix)%C) ->
  exists z, find_scalar_correction t1 t2 = Ok z /\ (forall ix, length ix = n -> tent t1 ix = (z * tent t2 ix)%C) /\ (~ tzero n t2 -> z = c).
Proof.
  intros t1 t2 n c R1 R2 H. unfold find_scalar_correction. rewrite R1. destruct (first_nz t1 0 (all_ix n)) as [[i a]|] eqn:F.
  - apply first_nz_some in F. destruct F as [ix [_ [N [-> NZ]]]]. rewrite Nat.sub_0_r in N. rewrite (flat_same t2 n i ix R2 N). cbn [bind]. assert (L := nth_error_In _ _ N). apply in_all_ix in L. assert (H1 := H ix L).
    destruct (C_eq_dec (tent t2 ix) C0) as [E|E]; [exfalso; apply NZ; rewrite H1, E; ring|]. exists (tent t1 ix / tent t2 ix)%C. split; auto. assert (X : (tent t1 ix / tent t2 ix)%C = c) by (rewrite H1; field; auto). rewrite X. auto.
  - rewrite first_nz_none in F. exists C0. split; auto. split; [intros ix L; rewrite F by (apply in_all_ix; auto); ring|]. intros NZ. destruct (C_eq_dec c C0) as [->|NC]; auto. exfalso. apply NZ. intros ix L.
    assert (E : (c * tent t2 ix)%C = C0) by (rewrite <- H by auto; apply F, in_all_ix; auto). transitivity (/ c * (c * tent t2 ix))%C; [field; auto|]. rewrite E. ring.
Qed.

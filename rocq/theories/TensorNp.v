(** Facts about the numpy operations of TensorModel *)
From Coq Require Import Reals ZArith QArith Qcanon List Bool Arith Lia Permutation FunctionalExtensionality.
From Verif Require Import CNum Base ScalarModel GraphModel RulesModel GraphSem SumLemmas RuleLemmas TensorModel.
Import ListNotations.
Open Scope nat_scope.

Lemma distinct_nodup : forall l, distinct l = true <-> NoDup l.
Proof.
  induction l as [|a l IH]; cbn [distinct]; [split; auto; constructor|]. rewrite andb_true_iff, negb_true_iff, nmem_false, IH. split.
  - intros [A B]. constructor; auto.
  - intros H. inversion H; auto.
Qed.
Lemma pos_some : forall p l j, pos p l = Some j -> j < length l /\ nth j l 0 = p.
Proof.
  induction l as [|q l IH]; intros j H; [discriminate|]. cbn [pos] in H. destruct (Nat.eqb_spec q p) as [->|N].
  - injection H as <-. cbn. split; auto. lia.
  - destruct (pos p l) as [k|]; [|discriminate]. injection H as <-. destruct (IH k eq_refl). cbn. split; auto. lia.
Qed.
Lemma pos_none : forall p l, pos p l = None <-> ~ In p l.
Proof.
  induction l as [|q l IH]; cbn [pos]; [split; auto|]. destruct (Nat.eqb_spec q p) as [->|N]; [split; [discriminate|intros H; exfalso; apply H; left; auto]|].
  destruct (pos p l) as [k|]; cbn [option_map].
  - split; [discriminate|]. intros H. exfalso. assert (X : Some k = None) by (apply IH; intros I; apply H; right; auto). discriminate.
  - split; auto. intros _ [E|I]; [congruence|]. apply IH in I; auto.
Qed.
Lemma pos_nth : forall l j, NoDup l -> j < length l -> pos (nth j l 0) l = Some j.
Proof.
  induction l as [|q l IH]; intros j N H; [cbn in H; lia|]. inversion N as [|? ? N1 N2]; subst. destruct j as [|j]; cbn [nth pos]; [rewrite Nat.eqb_refl; auto|].
  cbn in H. rewrite (proj2 (Nat.eqb_neq q (nth j l 0))) by (intros ->; apply N1; apply nth_In; lia). rewrite IH; auto. lia.
Qed.
Lemma in_free : forall n axes p, In p (free n axes) <-> p < n /\ ~ In p axes.
Proof. intros. unfold free. rewrite filter_In, in_seq, negb_true_iff, nmem_false. intuition lia. Qed.
Lemma nodup_free : forall n axes, NoDup (free n axes).
Proof. intros. apply NoDup_filter, seq_NoDup. Qed.
Definition inr (n : nat) (axes : list nat) : Prop := NoDup axes /\ forall p, In p axes -> p < n.
Lemma free_perm : forall n axes, inr n axes -> Permutation (seq 0 n) (axes ++ free n axes).
Proof.
  intros n axes [N H]. apply NoDup_Permutation.
  - apply seq_NoDup.
  - apply RuleLemmas.nodup_app; auto; [apply nodup_free|]. intros p I J. apply in_free in J. tauto.
  - intros p. rewrite in_seq, in_app_iff, in_free. destruct (in_dec Nat.eq_dec p axes) as [I|I]; [specialize (H p I)|]; intuition lia.
Qed.
Lemma free_len : forall n axes, inr n axes -> length axes + length (free n axes) = n.
Proof. intros n axes H. rewrite <- app_length, <- (Permutation_length (free_perm n axes H)). apply seq_length. Qed.
Lemma free_nil : forall n, free n [] = seq 0 n.
Proof. intros. unfold free. cbn. induction (seq 0 n) as [|a l IH]; cbn; [|rewrite IH]; auto. Qed.
Lemma filter_all : forall A (f : A -> bool) l, (forall a, In a l -> f a = true) -> filter f l = l.
Proof. induction l as [|a l IH]; intros H; auto. cbn. rewrite H by (left; auto). rewrite IH; auto. intros; apply H; right; auto. Qed.
Lemma filter_none : forall A (f : A -> bool) l, (forall a, In a l -> f a = false) -> filter f l = [].
Proof. induction l as [|a l IH]; intros H; auto. cbn. rewrite H by (left; auto). apply IH. intros; apply H; right; auto. Qed.


Lemma free_last : forall a k, free (a + k) (seq a k) = seq 0 a.
Proof.
  intros. unfold free. rewrite seq_app, filter_app. cbn [plus]. rewrite filter_all, filter_none; [apply app_nil_r| |].
  - intros p I. apply negb_false_iff, nmem_spec; auto.
  - intros p I. apply negb_true_iff, nmem_false. rewrite in_seq in *. lia.
Qed.
Lemma free_first : forall a k, free (a + k) (seq 0 a) = seq a k.
Proof.
  intros. unfold free. rewrite seq_app, filter_app. cbn [plus]. rewrite filter_none, filter_all; auto.
  - intros p I. apply negb_true_iff, nmem_false. rewrite in_seq in *. lia.
  - intros p I. apply negb_false_iff, nmem_spec; auto.
Qed.

Lemma nth_ms : forall A (f : nat -> A) n p d, p < n -> nth p (map f (seq 0 n)) d = f p.
Proof. intros A f n p d H. rewrite (nth_indep _ _ (f 0)) by (rewrite map_length, seq_length; auto). rewrite map_nth, seq_nth; auto. Qed.
Lemma fill_len : forall n axes cs fs, length (fill n axes cs fs) = n.
Proof. intros. unfold fill. rewrite map_length, seq_length. auto. Qed.
Lemma fill_nth : forall n axes cs fs p, p < n -> nth p (fill n axes cs fs) false =
  match pos p axes with Some j => nth j cs false | None => match pos p (free n axes) with Some j => nth j fs false | None => false end end.
Proof. intros. unfold fill. apply nth_ms; auto. Qed.
Lemma fill_ax : forall n axes cs fs j, inr n axes -> j < length axes -> nth (nth j axes 0) (fill n axes cs fs) false = nth j cs false.
Proof. intros n axes cs fs j [N H] L. rewrite fill_nth by (apply H, nth_In; auto). rewrite pos_nth; auto. Qed.
Lemma fill_fr : forall n axes cs fs j, j < length (free n axes) -> nth (nth j (free n axes) 0) (fill n axes cs fs) false = nth j fs false.
Proof.
  intros n axes cs fs j L. assert (I := nth_In (free n axes) 0 L). apply in_free in I. destruct I as [I J]. rewrite fill_nth by auto.
  rewrite (proj2 (pos_none _ _) J), pos_nth; auto. apply nodup_free.
Qed.
(** a product over the axes splits *)
Lemma cprod_nth : forall (F : nat -> C) l, cprod F l = cprod (fun j => F (nth j l 0)) (seq 0 (length l)).
Proof.
  intros F l. rewrite <- (cprod_map _ _ F (fun j => nth j l 0)). f_equal. apply nth_ext with (d := 0) (d' := 0); [rewrite map_length, seq_length; auto|].
  intros j H. rewrite nth_ms; auto.
Qed.
Lemma prod_fill : forall (F : nat -> bool -> C) n axes cs fs, inr n axes ->
  cprod (fun p => F p (nth p (fill n axes cs fs) false)) (seq 0 n) =
  (cprod (fun j => F (nth j axes 0) (nth j cs false)) (seq 0 (length axes)) * cprod (fun j => F (nth j (free n axes) 0) (nth j fs false)) (seq 0 (length (free n axes))))%C.
Proof.
  intros F n axes cs fs H. rewrite (cprod_perm _ _ _ _ (free_perm n axes H)), cprod_app. f_equal; rewrite cprod_nth; apply cprod_ext; intros j J; apply in_seq in J; f_equal.
  - apply fill_ax; auto. lia.
  - apply fill_fr. lia.
Qed.

(** *** sums over bits *)
Lemma bitsum_ext : forall k F G, (forall l, length l = k -> F l = G l) -> bitsum k F = bitsum k G.
Proof. induction k as [|k IH]; intros F G H; cbn [bitsum]; [apply H; auto|]. f_equal; apply IH; intros l L; apply H; cbn; auto. Qed.
Lemma bitsum_plus : forall k F G, bitsum k (fun l => (F l + G l)%C) = (bitsum k F + bitsum k G)%C.
Proof. induction k as [|k IH]; intros F G; cbn [bitsum]; auto. rewrite !IH. ring. Qed.
Lemma bitsum_scal : forall k c F, bitsum k (fun l => (c * F l)%C) = (c * bitsum k F)%C.
Proof. induction k as [|k IH]; intros c F; cbn [bitsum]; auto. rewrite !IH. ring. Qed.
Lemma bitsum_sumv : forall W k (F : list bool -> assignment -> C) x, bitsum k (fun cs => sumv W (F cs) x) = sumv W (fun y => bitsum k (fun cs => F cs y)) x.
Proof. induction W as [|v W IH]; intros k F x; cbn [sumv]; auto. rewrite bitsum_plus, !IH. auto. Qed.
Lemma bitsum_prod : forall k (F : nat -> bool -> C), bitsum k (fun cs => cprod (fun j => F j (nth j cs false)) (seq 0 k)) = cprod (fun j => (F j false + F j true)%C) (seq 0 k).
Proof.
  induction k as [|k IH]; intros F; [reflexivity|]. cbn [bitsum seq]. rewrite <- seq_shift.
  assert (E : forall b, bitsum k (fun l => cprod (fun j => F j (nth j (b :: l) false)) (0 :: map S (seq 0 k))) = (F 0 b * cprod (fun j => (F (S j) false + F (S j) true)%C) (seq 0 k))%C).
  { intros b. rewrite <- (IH (fun j => F (S j))), <- bitsum_scal. apply bitsum_ext. intros l _. cbn [cprod nth]. rewrite cprod_map. auto. }
  rewrite !E. cbn [cprod]. rewrite cprod_map. ring.
Qed.

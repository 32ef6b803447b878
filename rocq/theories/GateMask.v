(** Placing a circuit on some of the qubits of another one. *)
From Coq Require Import Reals ZArith QArith Qcanon List Bool Arith Lia FunctionalExtensionality.
From Verif Require Import CNum Base ScalarModel ScalarProofs GraphSem SumLemmas GateModel CircSpec GateProofs GateDecomp GateAdj.
Import ListNotations.
Open Scope C_scope.

(** assignments equal below n *)
Definition agree (n : nat) (x y : assignment) : Prop := forall i, (i < n)%nat -> x i = y i.
Definition local (n : nat) (s : state) : Prop := forall x y, agree n x y -> s x = s y.
Lemma agree_upd : forall n x y t b, agree n x y -> agree n (upd x t b) (upd y t b).
Proof. intros n x y t b H i Hi. unfold upd. destruct (Nat.eqb i t); auto. Qed.
Lemma parity_ext : forall ts x y, (forall t, In t ts -> x t = y t) -> parity ts x = parity ts y.
Proof. induction ts as [|t ts IH]; intros x y H; auto. cbn [parity fold_right]. rewrite (H t) by (left; auto). f_equal. apply IH. intros. apply H. right. auto. Qed.
Lemma agree_val : forall n x y q, agree n x y -> (q < n)%nat -> x q = y q.
Proof. auto. Qed.
Lemma gden_local : forall n g s, gate_in n g -> local n s -> local n (gden g s).
Proof.
  intros n g s [_ Q] L x y A.
  assert (U : forall t b, s (upd x t b) = s (upd y t b)) by (intros; apply L, agree_upd; auto).
  assert (U2 : forall t b t' b', s (upd (upd x t b) t' b') = s (upd (upd y t b) t' b')) by (intros; apply L, agree_upd, agree_upd; auto).
  assert (UV : forall t b q, (q < n)%nat -> upd x t b q = upd y t b q) by (intros t b q; apply agree_upd; auto).
  destruct g; cbn [gate_qubits] in Q; cbn [gden]; unfold ctrl, op1, flip, swapq;
  try (rewrite (parity_ext targets x y) by (intros; apply A, Q; auto));
  rewrite ?U2, ?U, ?(L x y A);
  repeat match goal with |- context [x ?q] => rewrite (A q) by (apply Q; simpl; auto) end;
  repeat match goal with |- context [upd x ?t ?b ?q] => rewrite (UV t b q) by (apply Q; simpl; auto) end;
  rewrite ?U2, ?U, ?(L x y A); reflexivity.
Qed.
Lemma cden_local : forall n l s, (forall g, In g l -> gate_in n g) -> local n s -> local n (cden l s).
Proof. induction l as [|g l IH]; intros s H L; auto. rewrite cden_cons. apply IH; [intros; apply H; right; auto|]. apply gden_local; auto. apply H. left. auto. Qed.

(** the classes whose [reposition] works *)
Definition rep_good (g : gate) : Prop := match g with GFSim _ _ _ _ | GRZZ _ _ _ _ => False | _ => True end.

Section Place.
  Variables (n : nat) (mask : list nat) (m : nat -> nat) (pu : assignment -> assignment) (pl : assignment -> assignment -> assignment).
  Hypothesis Mm : forall i, (i < n)%nat -> nth_error mask i = Some (m i).
  Hypothesis Mi : forall i j, (i < n)%nat -> (j < n)%nat -> m i = m j -> i = j.
  Hypothesis PU : forall x i, (i < n)%nat -> pu x i = x (m i).
  Hypothesis PL1 : forall x y i b, (i < n)%nat -> pl x (upd y i b) = upd (pl x y) (m i) b.
  Hypothesis PL2 : forall x, pl x (pu x) = x.
  Hypothesis PL3 : forall x y y', pl (pl x y) y' = pl x y'.
  Hypothesis PL4 : forall x y y', agree n y y' -> pl x y = pl x y'.
  Hypothesis PL5 : forall x y i, (i < n)%nat -> pl x y (m i) = y i.

  Lemma at_ok : forall i, (i < n)%nat -> at_ mask i = Ok (m i).
  Proof using Mm. intros. unfold at_. rewrite Mm; auto. Qed.
  Lemma mapM_at : forall l, (forall q, In q l -> (q < n)%nat) -> mapM (at_ mask) l = Ok (map m l).
  Proof using Mm. induction l as [|a l IH]; intros H; auto. cbn [mapM map]. rewrite at_ok by (apply H; left; auto). cbn [bind]. rewrite IH by (intros; apply H; right; auto). reflexivity. Qed.
  Lemma map_inj : forall l, (forall q, In q l -> (q < n)%nat) -> NoDup l -> NoDup (map m l).
  Proof using Mi.
    induction l as [|a l IH]; intros H ND; [constructor|]. inversion ND; subst. cbn [map]. constructor; [|apply IH; auto; intros; apply H; right; auto].
    intros C. apply in_map_iff in C. destruct C as [b [E I]]. apply Mi in E; [subst; auto|apply H; right; auto|apply H; left; auto].
  Qed.
  Lemma parity_map : forall ts x, (forall q, In q ts -> (q < n)%nat) -> parity (map m ts) x = parity ts (pu x).
  Proof using PU. induction ts as [|t ts IH]; intros x H; auto. cbn [parity fold_right map]. rewrite PU by (apply H; left; auto). f_equal. apply IH. intros. apply H. right. auto. Qed.
  Definition placed (g g' : gate) : Prop :=
    gate_qubits g' = map m (gate_qubits g) /\ gate_ok g' /\ forall s x, gden g' s x = gden g (fun y => s (pl x y)) (pu x).
  Theorem reposition_ok : forall g, gate_in n g -> rep_good g -> exists g', reposition mask g = Ok g' /\ placed g g'.
  Proof using Mm Mi PU PL1 PL2.
    intros g [[ND [NE EX]] Q] G. assert (NM := map_inj _ Q ND).
    destruct g; try contradiction; cbn [gate_qubits] in *; unfold reposition, rep1, rep2, rep3;
      rewrite ?at_ok by (apply Q; simpl; auto); rewrite ?mapM_at by auto; cbn [bind]; eexists; (split; [reflexivity|]); unfold placed, gate_ok; cbn [gate_qubits map] in *;
      (split; [reflexivity|]); (split; [split; [exact NM|split; [try discriminate|exact I]]|]);
      try (destruct targets; [congruence|discriminate]);
      intros s x; cbn [gden]; unfold ctrl, op1, flip, swapq; rewrite ?parity_map by auto;
      repeat rewrite PL1 by (apply Q; simpl; auto); rewrite ?PL2;
      repeat rewrite PU by (apply Q; simpl; auto); try reflexivity;
      rewrite !upd_other; try reflexivity; try (inversion ND as [|? ? X1 Y1]; subst; inversion NM as [|? ? X2 Y2]; subst; simpl in *; intros Z; subst; tauto);
      try (inversion ND as [|? ? X1 Y1]; subst; inversion NM as [|? ? X2 Y2]; subst; simpl in *; intros Z; symmetry in Z; tauto);
      try (rewrite !PU by (apply Q; simpl; auto); reflexivity).
  Qed.
  Theorem reposition_list : forall l, (forall g, In g l -> gate_in n g /\ rep_good g) -> exists l', mapM (reposition mask) l = Ok l' /\
    (forall g', In g' l' -> exists g, In g l /\ placed g g') /\ forall s x, cden l' s x = cden l (fun y => s (pl x y)) (pu x).
  Proof using Mm Mi PU PL1 PL2 PL3 PL4 PL5.
    induction l as [|g l IH]; intros H.
    - exists []. split; auto. split; [intros g' []|]. intros s x. rewrite !cden_nil, PL2. reflexivity.
    - destruct IH as [l' [E [I D]]]; [intros; apply H; right; auto|]. destruct (H g (or_introl eq_refl)) as [G R].
      destruct (reposition_ok g G R) as [g' [E' P']]. exists (g' :: l'). cbn [mapM]. rewrite E'. cbn [bind]. rewrite E. cbn [bind]. split; auto. split.
      + intros g0 [<-|Hg0]; [exists g; split; auto; left; auto|]. destruct (I g0 Hg0) as [g1 [A B]]. exists g1. split; auto. right. auto.
      + intros s x. rewrite !cden_cons, D. f_equal. apply state_ext. intros y. destruct P' as [_ [_ P']]. rewrite P'.
        replace (fun y0 => s (pl (pl x y) y0)) with (fun y0 => s (pl x y0)) by (apply functional_extensionality; intros; rewrite PL3; auto).
        apply (gden_local n); auto.
        * intros y1 y2 A. rewrite (PL4 x y1 y2); auto.
        * intros i Hi. rewrite PU, PL5; auto.
  Qed.
End Place.

(** ** a list of distinct qubits as mask *)
Fixpoint pos (mask : list nat) (q : nat) : option nat :=
  match mask with [] => None | a :: l => if Nat.eqb a q then Some 0%nat else option_map S (pos l q) end.
(** [place mask x y]: qubit [mask[i]] takes the value y i, the others keep x *)
Definition place (mask : list nat) (x y : assignment) : assignment := fun q => match pos mask q with Some i => y i | None => x q end.
Definition pull (mask : list nat) (x : assignment) : assignment := fun i => x (nth i mask 0%nat).
Lemma pos_nth : forall mask i q, NoDup mask -> nth_error mask i = Some q -> pos mask q = Some i.
Proof.
  induction mask as [|a l IH]; intros i q ND H; [destruct i; discriminate|]. inversion ND; subst. cbn [pos]. destruct i as [|i]; cbn in H.
  - inversion H; subst. rewrite Nat.eqb_refl. reflexivity.
  - destruct (Nat.eqb_spec a q); [subst; exfalso; apply H2; eapply nth_error_In; eauto|]. rewrite (IH i q); auto.
Qed.
Lemma pos_some : forall mask q i, pos mask q = Some i -> nth_error mask i = Some q.
Proof.
  induction mask as [|a l IH]; intros q i H; [discriminate|]. cbn [pos] in H. destruct (Nat.eqb_spec a q); [inversion H; subst; auto|].
  destruct (pos l q) eqn:E; [|discriminate]. inversion H; subst. cbn. auto.
Qed.
Lemma nth_nth_error : forall (l : list nat) i, (i < length l)%nat -> nth_error l i = Some (nth i l 0%nat).
Proof. intros. apply nth_error_nth'. auto. Qed.
Section ListMask.
  Variable mask : list nat.
  Hypothesis ND : NoDup mask.
  Notation n := (length mask).
  Notation m := (fun i => nth i mask 0%nat).
  Lemma lm_i : forall i j, (i < n)%nat -> (j < n)%nat -> m i = m j -> i = j.
  Proof using ND. intros i j Hi Hj E. apply (proj1 (NoDup_nth mask 0%nat) ND); auto. Qed.
  Lemma lm_pl1 : forall x y i b, (i < n)%nat -> place mask x (upd y i b) = upd (place mask x y) (m i) b.
  Proof using ND.
    intros x y i b Hi. apply functional_extensionality. intros q. unfold place, upd. destruct (pos mask q) as [j|] eqn:E.
    - apply pos_some in E. destruct (Nat.eqb_spec j i).
      + subst. rewrite (nth_error_nth _ _ 0%nat E), Nat.eqb_refl. reflexivity.
      + destruct (Nat.eqb_spec q (nth i mask 0%nat)) as [F|F]; auto. exfalso. apply n.
        assert (K : pos mask q = Some i) by (apply pos_nth; auto; rewrite F; apply nth_nth_error; auto). rewrite (pos_nth _ _ _ ND E) in K. congruence.
    - destruct (Nat.eqb_spec q (nth i mask 0%nat)) as [F|F]; auto. rewrite (pos_nth mask i q) in E; auto; [discriminate|]. rewrite F. apply nth_nth_error. auto.
  Qed.
  Lemma lm_pl2 : forall x, place mask x (pull mask x) = x.
  Proof. intros x. apply functional_extensionality. intros q. unfold place, pull. destruct (pos mask q) as [j|] eqn:E; auto. apply pos_some in E. rewrite (nth_error_nth _ _ 0%nat E). reflexivity. Qed.
  Lemma lm_pl3 : forall x y y', place mask (place mask x y) y' = place mask x y'.
  Proof. intros. apply functional_extensionality. intros q. unfold place. destruct (pos mask q); auto. Qed.
  Lemma lm_pl4 : forall x y y', agree n y y' -> place mask x y = place mask x y'.
  Proof. intros x y y' A. apply functional_extensionality. intros q. unfold place. destruct (pos mask q) as [j|] eqn:E; auto. apply A. apply pos_some in E. apply nth_error_Some. congruence. Qed.
  Lemma lm_pl5 : forall x y i, (i < n)%nat -> place mask x y (m i) = y i.
  Proof using ND. intros. unfold place. rewrite (pos_nth mask i); auto. apply nth_nth_error. auto. Qed.
End ListMask.
Lemma map_seq_nth : forall k n i, (i < n)%nat -> nth i (map (fun i => i + k)%nat (seq 0 n)) 0%nat = (i + k)%nat.
Proof. intros. rewrite (nth_indep _ _ ((fun i => i + k) 0)%nat) by (rewrite map_length, seq_length; auto). rewrite (map_nth (fun i => i + k)%nat (seq 0 n) 0%nat i), seq_nth by auto. reflexivity. Qed.
Lemma placed_in : forall m pu pl g g' k n, gate_in n g -> placed m pu pl g g' -> (forall i, (i < n)%nat -> (m i < k)%nat) -> gate_in k g'.
Proof. intros m pu pl g g' k n [_ Q] [E [G _]] H. split; auto. rewrite E. intros q Hq. apply in_map_iff in Hq. destruct Hq as [i [<- Hi]]. auto. Qed.
Theorem add_mask_ok : forall c d mask, circ_ok c -> circ_ok d -> (forall g, In g (cgates d) -> rep_good g) ->
  NoDup mask -> length mask = cqubits d -> (forall q, In q mask -> (q < cqubits c)%nat) ->
  exists r, c_add_mask c d mask = Ok r /\ cqubits r = cqubits c /\ circ_ok r /\
    forall s x, cden (cgates r) s x = cden (cgates d) (fun y => cden (cgates c) s (place mask x y)) (pull mask x).
Proof.
  intros c d mask Oc Od Rd ND LM IM. unfold c_add_mask. rewrite LM, Nat.eqb_refl. cbn [negb].
  destruct (reposition_list (cqubits d) mask (fun i => nth i mask 0%nat) (pull mask) (place mask)) with (l := cgates d) as [l' [E [P D]]].
  - intros. apply nth_nth_error. rewrite LM. auto.
  - rewrite <- LM. apply lm_i. auto.
  - reflexivity.
  - rewrite <- LM. apply lm_pl1. auto.
  - apply lm_pl2.
  - apply lm_pl3.
  - rewrite <- LM. apply lm_pl4.
  - rewrite <- LM. apply lm_pl5. auto.
  - intros. split; auto.
  - rewrite E. cbn [bind]. eexists. split; [reflexivity|]. split; auto. split.
    + intros g Hg. cbn [cgates cqubits] in *. apply in_app_or in Hg. destruct Hg as [Hg|Hg]; [apply Oc; auto|]. destruct (P g Hg) as [g0 [A B]].
      apply (placed_in _ _ _ _ _ _ _ (Od g0 A) B). intros i Hi. apply IM, nth_In. rewrite LM. auto.
    + intros s x. cbn [cgates]. rewrite cden_app, D. reflexivity.
Qed.
(** the second circuit acts on the qubits from [cqubits c] on *)
Theorem tensor_ok : forall c d, circ_ok c -> circ_ok d -> (forall g, In g (cgates d) -> rep_good g) ->
  exists r, c_tensor c d = Ok r /\ cqubits r = (cqubits c + cqubits d)%nat /\ circ_ok r /\
    forall s x, cden (cgates r) s x =
      cden (cgates d) (fun y => cden (cgates c) s (fun q => if (q <? cqubits c)%nat then x q else if (q <? cqubits c + cqubits d)%nat then y (q - cqubits c)%nat else x q))
        (fun i => x (i + cqubits c)%nat).
Proof.
  intros c d Oc Od Rd. unfold c_tensor. set (k := cqubits c) in *. set (n := cqubits d) in *.
  destruct (reposition_list n (map (fun i => i + k)%nat (seq 0 n)) (fun i => i + k)%nat (fun x i => x (i + k)%nat)
     (fun x y q => if (q <? k)%nat then x q else if (q <? k + n)%nat then y (q - k)%nat else x q)) with (l := cgates d) as [l' [E [P D]]].
  - intros i Hi. rewrite nth_nth_error by (rewrite map_length, seq_length; auto). rewrite map_seq_nth; auto.
  - intros. lia.
  - reflexivity.
  - intros x y i b Hi. apply functional_extensionality. intros q. unfold upd.
    destruct (Nat.ltb_spec q k), (Nat.ltb_spec q (k + n)), (Nat.eqb_spec (q - k) i), (Nat.eqb_spec q (i + k)); auto; lia.
  - intros x. apply functional_extensionality. intros q. destruct (Nat.ltb_spec q k), (Nat.ltb_spec q (k + n)); auto. f_equal. lia.
  - intros. apply functional_extensionality. intros q. destruct (Nat.ltb_spec q k), (Nat.ltb_spec q (k + n)); auto.
  - intros x y y' A. apply functional_extensionality. intros q. destruct (Nat.ltb_spec q k), (Nat.ltb_spec q (k + n)); auto. apply A. lia.
  - intros x y i Hi. cbv beta. destruct (Nat.ltb_spec (i + k) k), (Nat.ltb_spec (i + k) (k + n)); try lia. f_equal. lia.
  - intros. split; auto.
  - rewrite E. cbn [bind]. eexists. split; [reflexivity|]. split; auto. split.
    + intros g Hg. cbn [cgates cqubits] in *. apply in_app_or in Hg. destruct Hg as [Hg|Hg].
      * destruct (Oc g Hg) as [A B]. split; auto. intros q Hq. specialize (B q Hq). lia.
      * destruct (P g Hg) as [g0 [A B]]. apply (placed_in _ _ _ _ _ _ _ (Od g0 A) B). intros. unfold n in *. lia.
    + intros s x. cbn [cgates]. rewrite cden_app, D. reflexivity.
Qed.

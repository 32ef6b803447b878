(** verify_equality only answers True when the circuits agree. *)
From Coq Require Import Reals ZArith QArith Qcanon List Bool Arith Lia Permutation FunctionalExtensionality.
From Verif Require Import CNum Base ScalarModel ScalarProofs GraphModel GraphSem SumLemmas GraphProofs GraphOps RulesModel RuleLemmas
  SpiderProofs InvProofs BfixProofs TotalProofs SimpModel RunEx ZXFacts RedFacts
  GateModel CircSpec GateProofs GateDecomp GateAdj GateMask CircGraphModel CircGraphProofs CircGraphFacts VerifyModel.
Import ListNotations.
Open Scope C_scope.

(** ** A circuit is determined by its action on basis states *)
Definition above (n : nat) (x y : assignment) : Prop := forall i, (n <= i)%nat -> x i = y i.
Lemma above_upd : forall n x y t b, above n x y -> (t < n)%nat -> above n x (upd y t b).
Proof. intros n x y t b H Ht i Hi. rewrite upd_other by lia. auto. Qed.
Lemma gden_above : forall n g x s s', gate_in n g -> (forall y, above n x y -> s y = s' y) -> forall y, above n x y -> gden g s y = gden g s' y.
Proof.
  intros n g x s s' [_ Q] H y A.
  assert (U0 : s y = s' y) by auto.
  assert (U : forall t b, In t (gate_qubits g) -> s (upd y t b) = s' (upd y t b)) by (intros; apply H, above_upd; auto).
  assert (U2 : forall t b t' b', In t (gate_qubits g) -> In t' (gate_qubits g) -> s (upd (upd y t b) t' b') = s' (upd (upd y t b) t' b')).
  { intros. apply H, above_upd; auto. apply above_upd; auto. }
  destruct g; cbn [gate_qubits] in *; cbn [gden]; unfold ctrl, op1, flip, swapq; rewrite ?U0;
  repeat (rewrite U2 by (simpl; auto)); repeat (rewrite U by (simpl; auto)); reflexivity.
Qed.
Lemma cden_above : forall n l x s s', (forall g, In g l -> gate_in n g) -> (forall y, above n x y -> s y = s' y) -> forall y, above n x y -> cden l s y = cden l s' y.
Proof.
  induction l as [|g l IH]; intros x s s' G H; [exact H|]. rewrite !cden_cons. apply IH; [intros; apply G; simpl; auto|].
  apply (gden_above n); auto. apply G. simpl; auto.
Qed.
Lemma gden_plus : forall g s s', gden g (fun x => s x + s' x) = fun x => gden g s x + gden g s' x.
Proof.
  intros g s s'. apply state_ext. intros x. destruct g; unfold gden, ctrl, op1, scale2; try ring; repeat (match goal with |- context [if ?b then _ else _] => destruct b end); ring.
Qed.
Lemma cden_plus : forall l s s', cden l (fun x => s x + s' x) = fun x => cden l s x + cden l s' x.
Proof. induction l as [|g l IH]; intros s s'; auto. rewrite !cden_cons, gden_plus. apply IH. Qed.
Lemma cden_sumv : forall l L (a : assignment -> C) (f : assignment -> state) x,
  cden l (fun y => sumv L (fun i => a i * f i y) x) = fun y => sumv L (fun i => a i * cden l (f i) y) x.
Proof.
  intros l. induction L as [|q L IH]; intros a f x; cbn [sumv].
  - rewrite cden_scale. reflexivity.
  - rewrite cden_plus. rewrite !IH. reflexivity.
Qed.
Lemma sumv_point : forall L F x y, NoDup L ->
  sumv L (fun i => F i * cprod (fun q => dlt (i q) (y q)) L) x = F (fun v => if in_dec Nat.eq_dec v L then y v else x v).
Proof.
  induction L as [|q L IH]; intros F x y N.
  - simpl. rewrite Cmult_1_r. f_equal.
  - apply NoDup_cons_iff in N. destruct N as [N1 N2]. cbn [sumv].
    assert (X : forall w, sumv L (fun i => F i * cprod (fun q => dlt (i q) (y q)) (q :: L)) (upd x q w) =
       dlt w (y q) * sumv L (fun i => F i * cprod (fun q => dlt (i q) (y q)) L) (upd x q w)).
    { intros w. rewrite <- sumv_scal. apply sumv_ext_on. intros z Hz. cbn [cprod]. rewrite (Hz q) by auto. rewrite upd_same. ring. }
    rewrite !X, !IH by auto.
    assert (Y : dlt false (y q) * F (fun v => if in_dec Nat.eq_dec v L then y v else upd x q false v) + dlt true (y q) * F (fun v => if in_dec Nat.eq_dec v L then y v else upd x q true v)
      = F (fun v => if in_dec Nat.eq_dec v L then y v else upd x q (y q) v)) by (destruct (y q); unfold dlt; cbn [Bool.eqb]; ring).
    rewrite Y. f_equal. apply functional_extensionality. intros v. unfold upd.
    destruct (in_dec Nat.eq_dec v L) as [A|A], (in_dec Nat.eq_dec v (q :: L)) as [B|B]; auto.
    + exfalso. apply B. simpl; auto.
    + destruct B as [<-|B]; [rewrite Nat.eqb_refl; auto|contradiction].
    + destruct (Nat.eqb_spec v q); auto. subst. exfalso. apply B. simpl; auto.
Qed.
Lemma cden_matrix : forall n l s x, (forall g, In g l -> gate_in n g) ->
  cden l s x = sumv (seq 0 n) (fun i => s i * cden l (basis n i) x) x.
Proof.
  intros n l s x G. assert (E := cden_sumv l (seq 0 n) s (basis n) x).
  rewrite <- (f_equal (fun f => f x) E). cbv beta. apply (cden_above n l x); auto; [|intros i _; auto].
  intros y A. unfold basis. rewrite sumv_point by apply seq_NoDup. f_equal. apply functional_extensionality. intros v.
  destruct (in_dec Nat.eq_dec v (seq 0 n)) as [H|H]; auto. symmetry. apply A. rewrite in_seq in H. lia.
Qed.
(** the action of a map that permutes the bits below n *)
Lemma cden_perm : forall n l k (p : nat -> nat), (forall g, In g l -> gate_in n g) -> (forall q, (q < n)%nat -> (p q < n)%nat) ->
  (forall i y, cden l (basis n i) y = k * basis n i (fun q => y (p q))) ->
  forall s x, cden l s x = k * s (fun q => if Nat.ltb q n then x (p q) else x q).
Proof.
  intros n l k p G P H s x. rewrite (cden_matrix n) by auto.
  transitivity (sumv (seq 0 n) (fun i => k * (s i * cprod (fun q => dlt (i q) (x (p q))) (seq 0 n))) x).
  - apply sumv_ext. intros i. rewrite H. unfold basis. ring.
  - rewrite sumv_scal, (sumv_point (seq 0 n) s x (fun q => x (p q))) by apply seq_NoDup. do 2 f_equal. apply functional_extensionality. intros q.
    destruct (in_dec Nat.eq_dec q (seq 0 n)) as [A|A], (Nat.ltb_spec q n); auto; rewrite in_seq in A; lia.
Qed.

(** ** Circuits never map a state to zero *)
Lemma fsim_inj : forall c t ph s, c <> t -> (forall x, gden (GFSim c t (frac 1 2) ph) s x = C0) -> forall x, s x = C0.
Proof.
  intros c t ph s D H x.
  destruct (Bool.eqb (x c) (x t)) eqn:E.
  - specialize (H x). rewrite fsim_val, E in H. destruct (x c); [|rewrite Cmult_1_l in H; auto].
    apply Cmult_integral in H. destruct H as [H|H]; auto. exfalso. apply (cexp_neq0 (- ph)%Qc). auto.
  - specialize (H (swapq x c t)). rewrite fsim_val in H.
    assert (S1 : swapq x c t c = x t) by (unfold swapq; rewrite upd_other by auto; apply upd_same).
    assert (S2 : swapq x c t t = x c) by (unfold swapq; apply upd_same).
    assert (S3 : swapq (swapq x c t) c t = x).
    { unfold swapq at 1. rewrite S1, S2. unfold swapq. apply functional_extensionality. intros q. unfold upd.
      destruct (Nat.eqb_spec q t), (Nat.eqb_spec q c); subst; auto. }
    rewrite S1, S2, S3 in H. assert (E' : Bool.eqb (x t) (x c) = false) by (destruct (x c), (x t); auto). rewrite E' in H.
    assert (X : s x = Ci * (- Ci * s x)) by (assert (I := Ci2); ring [I]). rewrite X, H. ring.
Qed.
Lemma gden_zero : forall g x, gden g (fun _ => C0) x = C0.
Proof. intros g x. replace (fun _ : assignment => C0) with (fun y : assignment => C0 * (fun _ => C0) y) by (apply functional_extensionality; intros; ring). rewrite gden_scale. ring. Qed.
Lemma basic_inj : forall g s, gate_ok g -> basic g -> (forall x, gden g s x = C0) -> forall x, s x = C0.
Proof.
  intros g s O B H x.
  assert (GD : adj_good g -> s x = C0).
  { intros A. rewrite <- (adj_inv g s O A). replace (gden g s) with (fun _ : assignment => C0) by (apply functional_extensionality; intros; rewrite H; auto). apply gden_zero. }
  destruct g; try contradiction; try (apply GD; exact I).
  destruct O as [ND [_ ->]]. apply (fsim_inj control target phi s); auto. apply NoDup_cons_iff in ND. intros ->. apply ND. simpl; auto.
Qed.
Lemma basics_inj : forall l s, (forall g, In g l -> gate_ok g /\ basic g) -> (forall x, cden l s x = C0) -> forall x, s x = C0.
Proof.
  induction l as [|g l IH]; intros s G H; [exact H|]. destruct (G g (or_introl eq_refl)). apply (basic_inj g); auto. apply IH; [intros; apply G; simpl; auto|]. exact H.
Qed.
Lemma unitc_neq0 : forall z, unitc z -> z <> C0.
Proof. intros z U ->. unfold unitc in U. rewrite Cmult_0_l in U. apply C1_neq_C0. auto. Qed.
Lemma cden_inj : forall n l s, (forall g, In g l -> gate_in n g) -> (forall x, cden l s x = C0) -> forall x, s x = C0.
Proof.
  intros n l s G H. destruct (c_basic_ok (mkCirc n l) G) as [c' [z [_ [_ [B [U D]]]]]]. cbn [cgates cqubits] in D.
  apply (basics_inj (cgates c')).
  - intros g Hg. destruct (B g Hg) as [B1 [B2 _]]. auto.
  - intros x. rewrite D, H. ring.
Qed.

(** ** Diagrams made of plain wires between boundaries *)
Lemma cprod_zero : forall A (f : A -> C) l a, In a l -> f a = C0 -> cprod f l = C0.
Proof. induction l as [|b l IH]; intros a H E; [destruct H|]. cbn [cprod]. destruct H as [<-|H]; [rewrite E|rewrite (IH a) by auto]; ring. Qed.
Lemma pprod_zero : forall f l u v, In u l -> In v l -> u <> v -> f u v = C0 -> f v u = C0 -> pprod f l = C0.
Proof.
  induction l as [|a l IH]; intros u v Hu Hv D E1 E2; [destruct Hu|]. cbn [pprod].
  destruct Hu as [->|Hu], Hv as [->|Hv]; [congruence| | |].
  - rewrite (cprod_zero _ (f u) l v) by auto. ring.
  - rewrite (cprod_zero _ (f v) l u) by auto. ring.
  - rewrite (IH u v) by auto. ring.
Qed.
Section Wires.
  Variable g : graph.
  Hypothesis Z : zinv g.
  Hypothesis AB : forall v, In v (vertices g) -> isB g v = true.
  Hypothesis SI : forall u v e, edge_type g u v = Some e -> e = SIMPLE.
  Lemma wires_integ : forall b, sem g b = integL (vertices g) g b.
  Proof using AB.
    intros b. unfold sem. replace (internal g) with (@nil nat); auto. symmetry. unfold internal.
    assert (X : forall l, (forall v, In v l -> isB g v = true) -> filter (fun v => negb (isB g v)) l = []).
    { induction l as [|a l IH]; intros H; auto. simpl. rewrite H by (simpl; auto). apply IH. intros; apply H; simpl; auto. }
    apply X. exact AB.
  Qed.
  Lemma wires_ew : forall u v a b, In u (vertices g) -> In v (vertices g) -> ew g u v a b = if edge_type g u v then dlt a b else C1.
  Proof using AB SI.
    intros u v a b Hu Hv. unfold ew.
    assert (X : forall w, In w (vertices g) -> isX g w = false).
    { intros w Hw. assert (Y := AB w Hw). unfold isB, isX in *. destruct (vty g w); auto; discriminate. }
    rewrite !X by auto. destruct (edge_type g u v) as [e|] eqn:E; auto. rewrite (SI u v e E). reflexivity.
  Qed.
  Lemma wires_cut : forall b u v, edge_type g u v <> None -> b u <> b v -> sem g b = C0.
  Proof using Z AB SI.
    intros b u v E N. assert (W := zx_wf _ (zi_zx _ Z)). rewrite wires_integ. unfold integL.
    assert (Iu : In u (vertices g)) by (apply edge_type_in_l in E; auto).
    assert (E' : edge_type g v u <> None) by (rewrite (wf_sym g W); auto).
    assert (Iv : In v (vertices g)) by (apply edge_type_in_l in E'; auto).
    assert (D : u <> v) by (intros ->; apply N; auto).
    rewrite (pprod_zero _ _ u v); auto.
    - ring.
    - rewrite wires_ew by auto. destruct (edge_type g u v); [|congruence]. unfold dlt. destruct (b u), (b v); auto; congruence.
    - rewrite wires_ew by auto. destruct (edge_type g v u); [|congruence]. unfold dlt. destruct (b u), (b v); auto; congruence.
  Qed.
  Lemma wires_all : forall b, (forall u v, edge_type g u v <> None -> b u = b v) -> sem g b = to_number (gscalar g).
  Proof using Z AB SI.
    intros b H. rewrite wires_integ. unfold integL. rewrite pprod_1.
    - assert (X : cprod (fun v => pw g v (b v)) (vertices g) = C1).
      { apply cprod_1. intros v Hv. unfold pw. rewrite AB; auto. }
      rewrite X. ring.
    - intros u v Hu Hv. rewrite wires_ew by auto. destruct (edge_type g u v) eqn:E; auto. rewrite (H u v) by congruence. unfold dlt. rewrite eqb_reflx. auto.
  Qed.
End Wires.

Lemma NoDup_app_l : forall (l l' : list nat), NoDup (l ++ l') -> NoDup l.
Proof. induction l as [|a l IH]; intros l' H; [constructor|]. simpl in H. apply NoDup_cons_iff in H. destruct H as [H1 H2]. constructor; [|eapply IH; eauto]. intros X. apply H1, in_or_app. auto. Qed.
Lemma NoDup_app_r : forall (l l' : list nat), NoDup (l ++ l') -> NoDup l'.
Proof. induction l as [|a l IH]; intros l' H; auto. simpl in H. apply NoDup_cons_iff in H. apply IH. tauto. Qed.
Lemma fin_choice : forall n (P : nat -> nat -> Prop), (forall j, (j < n)%nat -> exists l, P j l) -> exists p, forall j, (j < n)%nat -> P j (p j).
Proof.
  induction n as [|n IH]; intros P H; [exists (fun j => j); intros; lia|].
  destruct (IH P) as [p Hp]; [intros; apply H; lia|]. destruct (H n) as [l Hl]; [lia|].
  exists (fun j => if Nat.eqb j n then l else p j). intros j Hj. destruct (Nat.eqb_spec j n); [subst; auto|apply Hp; lia].
Qed.
Lemma basis_self : forall n i, basis n i i = C1.
Proof. intros n i. unfold basis. apply cprod_1. intros q _. unfold dlt. rewrite eqb_reflx. auto. Qed.
Lemma basis_ext : forall n i i', (forall q, (q < n)%nat -> i q = i' q) -> basis n i = basis n i'.
Proof. intros n i i' H. apply state_ext. intros x. unfold basis. apply cprod_ext. intros q Hq. apply in_seq in Hq. rewrite H by lia. auto. Qed.
(** boundary bits with given values on the inputs and outputs *)
Fixpoint index (v : nat) (l : list nat) : nat := match l with [] => 0 | w :: l' => if Nat.eqb v w then 0 else S (index v l') end.
Lemma index_nth : forall l j, NoDup l -> (j < length l)%nat -> index (nth j l 0%nat) l = j.
Proof.
  induction l as [|a l IH]; intros j N H; [simpl in H; lia|]. apply NoDup_cons_iff in N. destruct N as [N1 N2]. destruct j as [|j]; simpl; [rewrite Nat.eqb_refl; auto|].
  simpl in H. destruct (Nat.eqb_spec (nth j l 0%nat) a) as [E|E]; [|rewrite IH; auto; lia]. exfalso. apply N1. rewrite <- E. apply nth_In. lia.
Qed.
Definition bits (ins outs : list nat) (i y : assignment) : assignment :=
  fun v => if Nat.ltb (index v (ins ++ outs)) (length ins) then i (index v (ins ++ outs)) else y (index v (ins ++ outs) - length ins)%nat.
Lemma bits_in : forall ins outs i y j, NoDup (ins ++ outs) -> (j < length ins)%nat -> bits ins outs i y (nth j ins 0%nat) = i j.
Proof.
  intros ins outs i y j N H. unfold bits.
  assert (E : index (nth j ins 0%nat) (ins ++ outs) = j).
  { rewrite <- (app_nth1 ins outs 0%nat H). apply index_nth; auto. rewrite app_length. lia. }
  rewrite E. apply Nat.ltb_lt in H. rewrite H. auto.
Qed.
Lemma bits_out : forall ins outs i y j, NoDup (ins ++ outs) -> (j < length outs)%nat -> bits ins outs i y (nth j outs 0%nat) = y j.
Proof.
  intros ins outs i y j N H. unfold bits.
  assert (E : index (nth j outs 0%nat) (ins ++ outs) = (length ins + j)%nat).
  { assert (X : nth (length ins + j) (ins ++ outs) 0%nat = nth j outs 0%nat) by (rewrite app_nth2_plus; auto).
    rewrite <- X. apply index_nth; auto. rewrite app_length. lia. }
  rewrite E. assert (L : Nat.ltb (length ins + j) (length ins) = false) by (apply Nat.ltb_ge; lia). rewrite L. f_equal. lia.
Qed.
Lemma wires_check_spec : forall n sw g, zinv g -> length (ginputs g) = n -> length (goutputs g) = n -> NoDup (ginputs g ++ goutputs g) -> wires_check n sw g = true ->
  (forall v, In v (vertices g) <-> In v (ginputs g ++ goutputs g)) /\ (forall v, In v (vertices g) -> isB g v = true) /\ (forall u v e, edge_type g u v = Some e -> e = SIMPLE) /\
  (sw = false -> forall j, (j < n)%nat -> edge_type g (nth j (ginputs g) 0%nat) (nth j (goutputs g) 0%nat) <> None).
Proof.
  intros n sw g Z L1 L2 ND H. unfold wires_check in H. apply andb_true_iff in H. destruct H as [H H3]. apply andb_true_iff in H. destruct H as [H1 H2].
  apply Nat.eqb_eq in H1. rewrite forallb_forall in H2. assert (ZX := zi_zx _ Z). assert (W := zx_wf _ ZX).
  assert (I1 : incl (ginputs g ++ goutputs g) (vertices g)) by (intros v Hv; apply (zx_io _ ZX); apply in_app_or; auto).
  assert (I2 : incl (vertices g) (ginputs g ++ goutputs g)).
  { apply (NoDup_length_incl ND); auto. unfold num_vertices in H1. rewrite app_length. lia. }
  split; [intros v; split; [apply I2|apply I1]|]. split; [|split].
  - intros v Hv. apply (zx_io _ ZX). apply in_app_or. auto.
  - assert (X : forall u v e, (u < v)%nat -> edge_type g u v = Some e -> e = SIMPLE).
    { intros u v e L E. assert (In (u, v) (edges g)) by (apply in_edges; auto; split; auto; congruence). specialize (H2 _ H). cbn [fst snd] in H2. rewrite E in H2. destruct e; auto; discriminate. }
    intros u v e E. destruct (lt_eq_lt_dec u v) as [[L|L]|L]; eauto.
    + subst. rewrite (zx_noloop _ ZX) in E. discriminate.
    + rewrite (wf_sym _ W) in E. eauto.
  - intros -> j Hj. cbn [orb] in H3. rewrite forallb_forall in H3.
    assert (In (nth j (ginputs g) 0%nat, nth j (goutputs g) 0%nat) (combine (ginputs g) (goutputs g))).
    { rewrite <- combine_nth by congruence. apply nth_In. rewrite combine_length. lia. }
    specialize (H3 _ H). cbn [fst snd] in H3. unfold connected in H3. destruct (edge_type g _ _); congruence.
Qed.
Lemma adj_qubits : forall g, gate_qubits (to_adjoint g) = gate_qubits g.
Proof. intros []; reflexivity. Qed.
Lemma adj_gate_in : forall n g, gate_in n g -> gate_in n (to_adjoint g).
Proof.
  intros n g [[A [B D]] E]. unfold gate_in, gate_ok. rewrite adj_qubits. split; auto. split; auto. split; auto. destruct g; simpl in *; auto.
Qed.
Lemma cden_zero : forall l x, cden l (fun _ => C0) x = C0.
Proof. intros l x. replace (fun _ : assignment => C0) with (fun y : assignment => C0 * (fun _ => C0) y) by (apply functional_extensionality; intros; ring). rewrite cden_scale. ring. Qed.

(** a diagram equal, up to a factor, to a plain-wire diagram and to a circuit *)
Lemma wires_circuit : forall n sw l g g', (forall q, In q l -> gate_in n q) -> zinv g' -> same_upto g g' -> length (ginputs g) = n -> length (goutputs g) = n ->
  NoDup (ginputs g ++ goutputs g) -> wires_check n sw g' = true ->
  (exists z, z <> C0 /\ forall b y, (forall j, (j < n)%nat -> y j = b (nth j (goutputs g) 0%nat)) -> sem g b = z * cden l (basis n (fun q => b (nth q (ginputs g) 0%nat))) y) ->
  exists p k, (forall q, (q < n)%nat -> (p q < n)%nat) /\ (forall q q', (q < n)%nat -> (q' < n)%nat -> p q = p q' -> q = q') /\
    (sw = false -> forall q, (q < n)%nat -> p q = q) /\ k <> C0 /\
    forall s x, cden l s x = k * s (fun q => if Nat.ltb q n then x (p q) else x q).
Proof.
  intros n sw l g g' G Z [EI [EO [k [K0 KS]]]] L1 L2 ND CH [z [Z0 ZS]].
  rewrite <- EI in L1, ND, ZS. rewrite <- EO in L2, ND, ZS. clear EI EO.
  set (ins := ginputs g') in *. set (outs := goutputs g') in *.
  destruct (wires_check_spec n sw g' Z L1 L2 ND CH) as [VV [AB [SI CO]]]. fold ins outs in VV, CO.
  assert (W := zx_wf _ (zi_zx _ Z)).
  assert (BV : forall v, In v (vertices g') -> vty g' v = BOUNDARY) by (intros v Hv; assert (X := AB v Hv); unfold isB in X; destruct (vty g' v); auto; discriminate).
  (* amplitudes in terms of the reduced diagram *)
  assert (AM : forall i y, cden l (basis n i) y = / (k * z) * sem g' (bits ins outs i y)).
  { intros i y. rewrite KS. rewrite (ZS _ y) by (intros j Hj; rewrite bits_out; auto; lia).
    rewrite (basis_ext n (fun q => bits ins outs i y (nth q ins 0%nat)) i) by (intros q Hq; apply bits_in; auto; lia). field. auto. }
  assert (II : forall j, (j < n)%nat -> In (nth j ins 0%nat) (vertices g')) by (intros j Hj; apply VV, in_or_app; left; apply nth_In; lia).
  assert (IO : forall j, (j < n)%nat -> In (nth j outs 0%nat) (vertices g')) by (intros j Hj; apply VV, in_or_app; right; apply nth_In; lia).
  (* inputs are joined to outputs *)
  assert (CHO : forall j, (j < n)%nat -> exists m, (m < n)%nat /\ edge_type g' (nth j ins 0%nat) (nth m outs 0%nat) <> None).
  { intros j Hj. destruct (zi_deg _ Z _ (II j Hj) (BV _ (II j Hj))) as [u Hu].
    assert (Eu : edge_type g' (nth j ins 0%nat) u <> None) by (apply Hu; auto).
    assert (Iu : In u (vertices g')) by (rewrite (wf_sym _ W) in Eu; apply edge_type_in_l in Eu; auto).
    apply VV in Iu. apply in_app_or in Iu. destruct Iu as [Iu|Iu].
    - exfalso. apply (In_nth _ _ 0%nat) in Iu. destruct Iu as [m [Hm E]]. rewrite L1 in Hm.
      assert (D : m <> j) by (intros ->; rewrite E in Eu; apply Eu; apply (zx_noloop _ (zi_zx _ Z))).
      set (i := fun q => Nat.eqb q j).
      assert (X : forall y, cden l (basis n i) y = C0).
      { intros y. rewrite AM. rewrite (wires_cut g' Z AB SI _ _ _ Eu); [ring|]. rewrite <- E. rewrite !bits_in by (auto; lia). unfold i. rewrite Nat.eqb_refl, (proj2 (Nat.eqb_neq m j)) by auto. discriminate. }
      assert (Y := cden_inj n l _ G X i). rewrite basis_self in Y. apply C1_neq_C0. auto.
    - apply (In_nth _ _ 0%nat) in Iu. destruct Iu as [m [Hm E]]. exists m. split; [lia|]. rewrite E. auto. }
  apply fin_choice in CHO. destruct CHO as [p Hp].
  assert (UN : forall v u w, In v (vertices g') -> edge_type g' v u <> None -> edge_type g' v w <> None -> u = w).
  { intros v u w Hv E1 E2. destruct (zi_deg _ Z _ Hv (BV _ Hv)) as [x Hx]. apply Hx in E1, E2. congruence. }
  assert (NI : forall j m, (j < n)%nat -> (m < n)%nat -> nth j ins 0%nat = nth m ins 0%nat -> j = m).
  { intros j m Hj Hm E. apply (proj1 (NoDup_nth ins 0%nat)); auto; try lia. apply NoDup_app_l in ND. auto. }
  assert (NO : forall j m, (j < n)%nat -> (m < n)%nat -> nth j outs 0%nat = nth m outs 0%nat -> j = m).
  { intros j m Hj Hm E. apply (proj1 (NoDup_nth outs 0%nat)); auto; try lia. apply NoDup_app_r in ND. auto. }
  assert (PI : forall q q', (q < n)%nat -> (q' < n)%nat -> p q = p q' -> q = q').
  { intros q q' Hq Hq' E. destruct (Hp q Hq) as [A1 A2], (Hp q' Hq') as [B1 B2]. rewrite <- E in B2. rewrite (wf_sym _ W) in A2, B2. apply NI; auto. apply (UN _ _ _ (IO _ A1) A2 B2). }
  assert (PS : FinFun.bSurjective n p).
  { apply FinFun.bInjective_bSurjective; [intros q Hq; apply Hp; auto|]. intros q q' Hq Hq'. apply PI; auto. }
  set (K := to_number (gscalar g')).
  assert (SE : forall b, sem g' b = K * cprod (fun j => dlt (b (nth j ins 0%nat)) (b (nth (p j) outs 0%nat))) (seq 0 n)).
  { intros b. destruct (forallb (fun j => Bool.eqb (b (nth j ins 0%nat)) (b (nth (p j) outs 0%nat))) (seq 0 n)) eqn:F.
    - rewrite forallb_forall in F. assert (F' : forall j, (j < n)%nat -> b (nth j ins 0%nat) = b (nth (p j) outs 0%nat)) by (intros j Hj; apply eqb_prop, F, in_seq; lia).
      rewrite (cprod_1 _ _ (seq 0 n)) by (intros j Hj; apply in_seq in Hj; rewrite F' by lia; unfold dlt; rewrite eqb_reflx; auto).
      rewrite Cmult_1_r. apply (wires_all g' Z AB SI).
      assert (X : forall j v, (j < n)%nat -> edge_type g' (nth j ins 0%nat) v <> None -> b (nth j ins 0%nat) = b v).
      { intros j v Hj E. destruct (Hp j Hj) as [_ H2]. rewrite (UN _ _ _ (II j Hj) E H2). auto. }
      intros u v E. assert (Iu := edge_type_in_l _ _ _ E). apply VV in Iu. apply in_app_or in Iu. destruct Iu as [Iu|Iu]; apply (In_nth _ _ 0%nat) in Iu; destruct Iu as [m [Hm <-]].
      + apply X; auto. lia.
      + rewrite L2 in Hm. destruct (PS m Hm) as [j [Hj <-]]. destruct (Hp j Hj) as [H1 H2]. rewrite (wf_sym _ W) in H2. rewrite (UN _ _ _ (IO _ H1) E H2). symmetry. auto.
    - assert (X : exists j, (j < n)%nat /\ b (nth j ins 0%nat) <> b (nth (p j) outs 0%nat)).
      { clear - F. assert (Y : forall L, forallb (fun j => Bool.eqb (b (nth j ins 0%nat)) (b (nth (p j) outs 0%nat))) L = false -> exists j, In j L /\ b (nth j ins 0%nat) <> b (nth (p j) outs 0%nat)).
        { induction L as [|a L IH]; intros H; [discriminate|]. simpl in H. destruct (Bool.eqb (b (nth a ins 0%nat)) (b (nth (p a) outs 0%nat))) eqn:E.
          - destruct (IH H) as [j [H1 H2]]. exists j. split; auto. simpl; auto.
          - exists a. split; [simpl; auto|]. intros Q. rewrite Q, eqb_reflx in E. discriminate. }
        destruct (Y _ F) as [j [H1 H2]]. apply in_seq in H1. exists j. split; auto. lia. }
      destruct X as [j [Hj N]]. destruct (Hp j Hj) as [H1 H2]. rewrite (wires_cut g' Z AB SI b _ _ H2 N).
      rewrite (cprod_zero _ _ _ j); [ring|apply in_seq; lia|]. unfold dlt. destruct (b (nth j ins 0%nat)), (b (nth (p j) outs 0%nat)); auto; congruence. }
  assert (AM' : forall i y, cden l (basis n i) y = (/ (k * z) * K) * basis n i (fun q => y (p q))).
  { intros i y. rewrite AM, SE. unfold basis. rewrite Cmult_assoc. f_equal. apply cprod_ext. intros j Hj. apply in_seq in Hj. destruct (Hp j) as [H1 _]; [lia|].
    rewrite bits_in, bits_out by (auto; lia). auto. }
  assert (KN : / (k * z) * K <> C0).
  { intros E. set (i := fun _ : nat => false). assert (X : forall y, cden l (basis n i) y = C0) by (intros y; rewrite AM', E; ring).
    assert (Y := cden_inj n l _ G X i). rewrite basis_self in Y. apply C1_neq_C0. auto. }
  exists p, (/ (k * z) * K). split; [intros q Hq; apply Hp; auto|]. split; auto. split.
  - intros -> q Hq. destruct (Hp q Hq) as [H1 H2]. apply NO; auto. apply (UN _ _ _ (II q Hq) H2). apply CO; auto.
  - split; auto. apply cden_perm; auto. intros q Hq. apply Hp. auto.
Qed.
Theorem verify_sound : forall so sw c d, is_perm_oracle so -> so (seq 0 (cqubits c)) = seq 0 (cqubits c) -> circ_ok c -> circ_ok d -> (forall g, In g (cgates c) -> adj_good g) ->
  verify_equality so sw c d (Ok true) ->
  cqubits d = cqubits c /\
  exists p k, (forall q, (q < cqubits c)%nat -> (p q < cqubits c)%nat) /\ (forall q q', (q < cqubits c)%nat -> (q' < cqubits c)%nat -> p q = p q' -> q = q') /\
    (sw = false -> forall q, (q < cqubits c)%nat -> p q = q) /\ k <> C0 /\
    forall s x, cden (cgates d) s x = k * cden (cgates c) s (fun q => if Nat.ltb q (cqubits c) then x (p q) else x q).
Proof.
  intros so sw c d SO SI OC OD AG V. unfold verify_equality, c_add in V. cbn [c_adjoint cqubits cgates] in V.
  destruct (Nat.eqb_spec (cqubits c) (cqubits d)) as [EN|]; [|discriminate]. cbn [negb bind] in V. split; auto.
  set (e := mkCirc (cqubits c) (map to_adjoint (rev (cgates c)) ++ cgates d)) in *.
  assert (OE : circ_ok e).
  { intros g Hg. unfold e in *. cbn [cgates cqubits] in *. apply in_app_or in Hg. destruct Hg as [Hg|Hg].
    - apply in_map_iff in Hg. destruct Hg as [g0 [<- Hg]]. apply in_rev in Hg. apply adj_gate_in. apply OC. auto.
    - rewrite EN. apply OD. auto. }
  destruct (to_graph_ok so true e SO OE) as [g [z [E [U [Z [L1 [L2 [ND SE]]]]]]]]. rewrite E in V. destruct V as [r' [R V]].
  destruct (full_reduce_correct g Z r' R) as [u [g' [-> [[Z' _] [MK _]]]]]. cbn [bind snd] in V. injection V as V. symmetry in V.
  change (cqubits e) with (cqubits c) in *.
  destruct (wires_circuit (cqubits c) sw (cgates e) g g') as [p [k [P1 [P2 [P3 [K0 H]]]]]]; auto.
  - exists z. split; [apply unitc_neq0; auto|]. intros b y Hy. apply SE. rewrite SI. intros j Hj. rewrite seq_nth by auto. apply Hy. auto.
  - exists p, k. split; auto. split; auto. split; auto. split; auto. intros s x.
    rewrite <- (H (cden (cgates c) s) x). unfold e. cbn [cgates]. rewrite cden_app, circ_adj; auto. intros q Hq. split; [apply OC|apply AG]; auto.
Qed.
Theorem verify_sound_id : forall so c d, is_perm_oracle so -> so (seq 0 (cqubits c)) = seq 0 (cqubits c) -> circ_ok c -> circ_ok d -> (forall g, In g (cgates c) -> adj_good g) ->
  verify_equality so false c d (Ok true) ->
  cqubits d = cqubits c /\ exists k, k <> C0 /\ forall s x, cden (cgates d) s x = k * cden (cgates c) s x.
Proof.
  intros so c d SO SI OC OD AG V. destruct (verify_sound so false c d SO SI OC OD AG V) as [N [p [k [_ [_ [P [K0 H]]]]]]]. split; auto. exists k. split; auto.
  intros s x. rewrite H. do 2 f_equal. apply functional_extensionality. intros q. destruct (Nat.ltb_spec q (cqubits c)) as [L|L]; [rewrite (P eq_refl q L)|]; auto.
Qed.
Theorem verify_total : forall so sw c d r, is_perm_oracle so -> circ_ok c -> circ_ok d -> verify_equality so sw c d r ->
  if Nat.eqb (cqubits c) (cqubits d) then exists a, r = Ok a else r = Err TypeError.
Proof.
  intros so sw c d r SO OC OD V. unfold verify_equality, c_add in V. cbn [c_adjoint cqubits cgates] in V.
  destruct (Nat.eqb_spec (cqubits c) (cqubits d)) as [EN|]; cbn [negb bind] in V; auto.
  set (e := mkCirc (cqubits c) (map to_adjoint (rev (cgates c)) ++ cgates d)) in *.
  assert (OE : circ_ok e).
  { intros g Hg. unfold e in *. cbn [cgates cqubits] in *. apply in_app_or in Hg. destruct Hg as [Hg|Hg].
    - apply in_map_iff in Hg. destruct Hg as [g0 [<- Hg]]. apply in_rev in Hg. apply adj_gate_in. apply OC. auto.
    - rewrite EN. apply OD. auto. }
  destruct (to_graph_ok so true e SO OE) as [g [z [E [U [Z _]]]]]. rewrite E in V. destruct V as [r' [R V]].
  destruct (full_reduce_correct g Z r' R) as [u [g' [-> _]]]. cbn [bind] in V. eauto.
Qed.

(** ** is_id *)
Theorem is_id_wires : forall g, zinv g -> NoDup (ginputs g ++ goutputs g) -> (forall u v e, edge_type g u v = Some e -> e = SIMPLE) -> is_id g = true ->
  length (goutputs g) = length (ginputs g) /\
  forall b, sem g b = to_number (gscalar g) * cprod (fun vw => dlt (b (fst vw)) (b (snd vw))) (combine (ginputs g) (goutputs g)).
Proof.
  intros g Z ND SI H. unfold is_id in H.
  destruct (Nat.eqb_spec (length (ginputs g)) (length (goutputs g))) as [L|]; [|discriminate].
  destruct (Nat.eqb_spec (num_vertices g) (2 * length (ginputs g))) as [N|]; [|discriminate].
  destruct (Nat.eqb _ _); [|discriminate]. cbn [negb orb] in H. split; auto. intros b.
  assert (ZX := zi_zx _ Z). assert (W := zx_wf _ ZX). rewrite forallb_forall in H.
  assert (I2 : incl (vertices g) (ginputs g ++ goutputs g)).
  { apply (NoDup_length_incl ND); [|intros v Hv; apply (zx_io _ ZX); apply in_app_or; auto]. unfold num_vertices in N. rewrite app_length. lia. }
  assert (AB : forall v, In v (vertices g) -> isB g v = true) by (intros v Hv; apply (zx_io _ ZX); apply in_app_or; auto).
  assert (BV : forall v, In v (vertices g) -> vty g v = BOUNDARY) by (intros v Hv; assert (X := AB v Hv); unfold isB in X; destruct (vty g v); auto; discriminate).
  assert (UN : forall v u w, In v (vertices g) -> edge_type g v u <> None -> edge_type g v w <> None -> u = w).
  { intros v u w Hv E1 E2. destruct (zi_deg _ Z _ Hv (BV _ Hv)) as [x Hx]. apply Hx in E1, E2. congruence. }
  assert (CE : forall v w, In (v, w) (combine (ginputs g) (goutputs g)) -> edge_type g v w <> None).
  { intros v w Hvw. specialize (H _ Hvw). cbn [fst snd] in H. unfold connected in H. destruct (edge_type g v w); congruence. }
  destruct (forallb (fun vw => Bool.eqb (b (fst vw)) (b (snd vw))) (combine (ginputs g) (goutputs g))) eqn:F.
  - rewrite forallb_forall in F. rewrite cprod_1 by (intros vw Hvw; unfold dlt; rewrite (F vw) by auto; auto).
    rewrite Cmult_1_r. apply (wires_all g Z AB SI).
    intros u v E. assert (Iu := edge_type_in_l _ _ _ E). assert (Iu' := Iu). apply I2 in Iu. apply in_app_or in Iu.
    destruct Iu as [Iu|Iu]; apply (In_nth _ _ 0%nat) in Iu; destruct Iu as [j [Hj Ej]].
    + assert (X : In (u, nth j (goutputs g) 0%nat) (combine (ginputs g) (goutputs g))) by (rewrite <- Ej, <- combine_nth by auto; apply nth_In; rewrite combine_length; lia).
      rewrite (UN _ _ _ Iu' E (CE _ _ X)). apply eqb_prop. apply (F _ X).
    + assert (X : In (nth j (ginputs g) 0%nat, u) (combine (ginputs g) (goutputs g))) by (rewrite <- Ej, <- combine_nth by auto; apply nth_In; rewrite combine_length; lia).
      assert (Y := CE _ _ X). rewrite (wf_sym _ W) in Y. rewrite (UN _ _ _ Iu' E Y). symmetry. apply eqb_prop. apply (F _ X).
  - assert (X : exists v w, In (v, w) (combine (ginputs g) (goutputs g)) /\ b v <> b w).
    { clear - F. induction (combine (ginputs g) (goutputs g)) as [|[v w] l IH]; [discriminate|]. simpl in F. destruct (Bool.eqb (b v) (b w)) eqn:E.
      - destruct (IH F) as [v' [w' [H1 H2]]]. exists v', w'. split; auto. simpl; auto.
      - exists v, w. split; [simpl; auto|]. intros Q. rewrite Q, eqb_reflx in E. discriminate. }
    destruct X as [v [w [Hvw D]]]. rewrite (wires_cut g Z AB SI b _ _ (CE _ _ Hvw) D).
    rewrite (cprod_zero _ _ _ (v, w) Hvw); [ring|]. unfold dlt. cbn [fst snd]. destruct (b v), (b w); auto; congruence.
Qed.

(** ** A wrong adjoint makes verify_equality accept different circuits *)
Definition vf1 : circuit := mkCirc 1 [GU2 0 0%Qc 0%Qc].
Definition vf2 : circuit := mkCirc 1 [GY KYPhase 0 (frac (-1) 2)].
Lemma vf_differ : ~ exists k, forall s x, cden (cgates vf2) s x = k * cden (cgates vf1) s x.
Proof.
  intros [k H]. set (s := fun x : assignment => if x 0%nat then C0 else C1).
  assert (H0 := H s (fun _ => false)). assert (H1 := H s (fun _ => true)). unfold vf1, vf2 in H0, H1. cbn [cgates cden fold_left gden] in H0, H1.
  unfold op1, s, mRY, mU2, mk2 in H0, H1. rewrite !upd_same in H0, H1. rewrite cexp_0 in H1.
  set (p := frac (-1) 2) in *.
  assert (D : cosh_ p = sinh_ p).
  { transitivity (cosh_ p * C1 + - sinh_ p * C0); [ring|]. rewrite H0. transitivity (sinh_ p * C1 + cosh_ p * C0); [rewrite H1; ring|ring]. }
  rewrite cos_exp, sin_exp in D. set (e := cexp (half p)) in *. assert (N : e <> C0) by apply cexp_neq0.
  assert (E2 : e * e = - Ci).
  { unfold e. rewrite <- cexp_add. replace (half p + half p)%Qc with (- frac 1 2)%Qc by (apply Qc_is_canon; reflexivity). rewrite cexp_inv, cexp_12. apply Ci_inv. }
  assert (I := Ci2). assert (T := two_neq0). apply T.
  assert (X : (C1 + C1) * (C1 + C1) = C0).
  { transitivity (((e + / e) * / (C1 + C1) - (- Ci * (e - / e) * / (C1 + C1))) * ((C1 + C1) * e) * (C1 + Ci)); [|rewrite D; ring].
    transitivity ((e * e + C1 + Ci * (e * e - C1)) * (C1 + Ci)); [rewrite E2; ring [I]|field; auto]. }
  apply Cmult_integral in X. destruct X; auto.
Qed.
Theorem verify_adjoint_refuted : exists c d, circ_ok c /\ circ_ok d /\ verify_equality (fun l => l) false c d (Ok true) /\
  ~ exists k, forall s x, cden (cgates d) s x = k * cden (cgates c) s x.
Proof.
  exists vf1, vf2. split; [|split; [|split]].
  - intros g [<-|[]]. split; [split; [repeat constructor; simpl; tauto|split; [discriminate|exact I]]|]. simpl. intros q [<-|[]]. lia.
  - intros g [<-|[]]. split; [split; [repeat constructor; simpl; tauto|split; [discriminate|exact I]]|]. simpl. intros q [<-|[]]. lia.
  - unfold verify_equality. destruct (let* c := c_add (c_adjoint vf1) vf2 in to_graph (fun l => l) false true c) as [g|] eqn:E; [|vm_compute in E; discriminate].
    destruct (exec_full 30 g) as [[u g']|] eqn:X.
    + exists (Ok (u, g')). split; [apply (exec_full_run 30); exact X|]. vm_compute in E. injection E as <-. vm_compute in X. injection X as _ <-. vm_compute. reflexivity.
    + exfalso. vm_compute in E. injection E as <-. vm_compute in X. discriminate.
  - exact vf_differ.
Qed.
(** is_id does not look at the edge types *)
Definition hwire : graph := mkgraph [(BOUNDARY, 0%Qc); (BOUNDARY, 0%Qc)] [(0, 1, HADAMARD)]%nat [0%nat] [1%nat].
Theorem is_id_hadamard : zinv hwire /\ NoDup (ginputs hwire ++ goutputs hwire) /\ is_id hwire = true /\ exists b, b 0%nat <> b 1%nat /\ sem hwire b <> C0.
Proof.
  split; [apply zinvb_ok; vm_compute; reflexivity|]. split; [repeat constructor; simpl; intuition congruence|]. split; [vm_compute; reflexivity|].
  exists (fun v => Nat.eqb v 0). split; [discriminate|]. intros H.
  assert (E : sem hwire (fun v => Nat.eqb v 0) = sq2p (-1)).
  { assert (T : to_number scalar_init = C1) by (unfold to_number, scalar_init; simpl; rewrite cexp_0, sq2p_0; ring).
    lazy -[C Cmult Cplus Copp Cminus cexp qmod2 sq2p C1 C0 to_number scalar_init]. rewrite T. ring. }
  rewrite E in H. apply (sq2p_neq0 (-1)). auto.
Qed.

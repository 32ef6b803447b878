(** Invertible diagrams, and splitting gates off their outputs. *)
From Coq Require Import Reals ZArith QArith Qcanon List Bool Arith Lia Permutation FunctionalExtensionality.
From Verif Require Import CNum Base ScalarModel ScalarProofs GraphModel GraphSem SumLemmas GraphProofs GraphOps RulesModel RuleLemmas
  SpiderProofs IsoProofs IdProofs LcompProofs PivotProofs PivotMatch GrowProofs StoreProofs InvProofs BfixProofs TotalProofs GrowTotal
  GateModel CircSpec GateProofs GateMask AmpProofs CircGraphModel CircGraphProofs CircGraphFacts VerifyProofs GraphAlgModel GraphAlgProofs GraphAlgFacts
  ComposeProofs ApplyProofs ExtractSem.
Import ListNotations.
Open Scope C_scope.

Record gok (g : graph) : Prop := mkgok { gk_z : zinv g; gk_io : io_ok g; gk_gl : glike g }.
Definition zerob : assignment := fun _ => false.
(** the map of a diagram, as a matrix indexed by input bits i and output bits y,
    is onto and one-to-one *)
Definition nin (g : graph) : nat := length (ginputs g).
Definition nout (g : graph) : nat := length (goutputs g).
Definition onto (g : graph) : Prop := forall s, local (nout g) s ->
  exists a, forall y, s y = sumv (seq 0 (nin g)) (fun i => a i * val g i y) zerob.
Definition oneone (g : graph) : Prop := forall a, (forall y, sumv (seq 0 (nin g)) (fun i => a i * val g i y) zerob = C0) ->
  forall i, (forall j, (nin g <= j)%nat -> i j = false) -> a i = C0.

Lemma nd_app : forall A (l l' : list A), NoDup (l ++ l') -> NoDup l /\ NoDup l' /\ forall x, In x l -> ~ In x l'.
Proof.
  induction l as [|a l IH]; intros l' H; simpl in H; [repeat split; auto; constructor|]. inversion H; subst. destruct (IH l' H3) as [A1 [A2 A3]].
  split; [constructor; auto; intros X; apply H2; apply in_or_app; auto|]. split; auto.
  intros x [<-|X] Y; [apply H2; apply in_or_app; auto|apply (A3 x); auto].
Qed.
Section Ok.
  Variable g : graph.
  Hypothesis G : gok g.
  Lemma gk_wf : wfg g. Proof. apply (zx_wf _ (zi_zx _ (gk_z _ G))). Qed.
  Lemma gk_nl : noloop g. Proof. apply (zx_noloop _ (zi_zx _ (gk_z _ G))). Qed.
  Lemma gk_deg : bdeg g. Proof. apply (zi_deg _ (gk_z _ G)). Qed.
  Lemma gk_X : forall v, In v (vertices g) -> isX g v = false.
  Proof. intros v Hv. unfold isX. destruct (proj1 (gk_gl _ G) v Hv) as [->| ->]; auto. Qed.
  Lemma gk_out : forall q, (q < nout g)%nat -> In (nth q (goutputs g) 0%nat) (vertices g) /\ vty g (nth q (goutputs g) 0%nat) = BOUNDARY.
  Proof.
    intros q H. destruct (zx_io _ (zi_zx _ (gk_z _ G)) (nth q (goutputs g) 0%nat)) as [A B]; [right; apply nth_In; auto|].
    split; auto. apply vtype_eqb_eq. auto.
  Qed.
  Lemma gk_in : forall q, (q < nin g)%nat -> In (nth q (ginputs g) 0%nat) (vertices g) /\ vty g (nth q (ginputs g) 0%nat) = BOUNDARY.
  Proof.
    intros q H. destruct (zx_io _ (zi_zx _ (gk_z _ G)) (nth q (ginputs g) 0%nat)) as [A B]; [left; apply nth_In; auto|].
    split; auto. apply vtype_eqb_eq. auto.
  Qed.
  Lemma gk_outs : forall o, In o (goutputs g) -> In o (vertices g) /\ vty g o = BOUNDARY.
  Proof. intros o H. destruct (In_nth _ _ 0%nat H) as [q [Q <-]]. apply gk_out. auto. Qed.
  Lemma gk_ins : forall o, In o (ginputs g) -> In o (vertices g) /\ vty g o = BOUNDARY.
  Proof. intros o H. destruct (In_nth _ _ 0%nat H) as [q [Q <-]]. apply gk_in. auto. Qed.
  Lemma gk_nd_out : NoDup (goutputs g).
  Proof. apply (nd_app _ (ginputs g) (goutputs g) (gk_io _ G)). Qed.
  Lemma gk_nd_in : NoDup (ginputs g).
  Proof. apply (nd_app _ (ginputs g) (goutputs g) (gk_io _ G)). Qed.
  Lemma gk_disj : forall v, In v (ginputs g) -> ~ In v (goutputs g).
  Proof. apply (nd_app _ (ginputs g) (goutputs g) (gk_io _ G)). Qed.
  Lemma gk_out_inj : forall q q', (q < nout g)%nat -> (q' < nout g)%nat -> nth q (goutputs g) 0%nat = nth q' (goutputs g) 0%nat -> q = q'.
  Proof. intros q q' H H' E. apply (proj1 (NoDup_nth (goutputs g) 0%nat) gk_nd_out); auto. Qed.

  Lemma gk_in_inj : forall q q', (q < nin g)%nat -> (q' < nin g)%nat -> nth q (ginputs g) 0%nat = nth q' (ginputs g) 0%nat -> q = q'.
  Proof. intros q q' H H' E. apply (proj1 (NoDup_nth (ginputs g) 0%nat) gk_nd_in); auto. Qed.
  Lemma gk_in_out : forall q q', (q < nin g)%nat -> (q' < nout g)%nat -> nth q (ginputs g) 0%nat <> nth q' (goutputs g) 0%nat.
  Proof. intros q q' H H' E. apply (gk_disj (nth q (ginputs g) 0%nat)); [apply nth_In; auto|]. rewrite E. apply nth_In; auto. Qed.
  Lemma sem_val : forall b i y, (forall j, (j < nin g)%nat -> b (nth j (ginputs g) 0%nat) = i j) -> (forall j, (j < nout g)%nat -> b (nth j (goutputs g) 0%nat) = y j) ->
    sem g b = val g i y.
  Proof. intros b i y H H'. rewrite val_sem by apply G. apply val_ext; try apply G; auto. Qed.
  Lemma bits_out' : forall i y q, (q < nout g)%nat -> bits (ginputs g) (goutputs g) i y (nth q (goutputs g) 0%nat) = y q.
  Proof. intros. apply bits_out; auto. apply G. Qed.
  Lemma bits_in' : forall i y q, (q < nin g)%nat -> bits (ginputs g) (goutputs g) i y (nth q (ginputs g) 0%nat) = i q.
  Proof. intros. apply bits_in; auto. apply G. Qed.
  Lemma upd_outs : forall b i y q c, (q < nout g)%nat ->
    (forall j, (j < nin g)%nat -> b (nth j (ginputs g) 0%nat) = i j) /\ (forall j, (j < nout g)%nat -> b (nth j (goutputs g) 0%nat) = y j) ->
    (forall j, (j < nin g)%nat -> upd b (nth q (goutputs g) 0%nat) c (nth j (ginputs g) 0%nat) = i j) /\
    (forall j, (j < nout g)%nat -> upd b (nth q (goutputs g) 0%nat) c (nth j (goutputs g) 0%nat) = upd y q c j).
  Proof.
    intros b i y q c Q [H1 H2]. split; intros j J.
    - rewrite upd_other by (apply gk_in_out; auto). auto.
    - unfold upd. destruct (Nat.eqb_spec j q) as [->|D]; [rewrite Nat.eqb_refl; auto|].
      destruct (Nat.eqb_spec (nth j (goutputs g) 0%nat) (nth q (goutputs g) 0%nat)) as [E|E]; [|auto]. exfalso. apply D. apply gk_out_inj; auto.
  Qed.
  Lemma upd_ins : forall b i y q c, (q < nin g)%nat ->
    (forall j, (j < nin g)%nat -> b (nth j (ginputs g) 0%nat) = i j) /\ (forall j, (j < nout g)%nat -> b (nth j (goutputs g) 0%nat) = y j) ->
    (forall j, (j < nin g)%nat -> upd b (nth q (ginputs g) 0%nat) c (nth j (ginputs g) 0%nat) = upd i q c j) /\
    (forall j, (j < nout g)%nat -> upd b (nth q (ginputs g) 0%nat) c (nth j (goutputs g) 0%nat) = y j).
  Proof.
    intros b i y q c Q [H1 H2]. split; intros j J.
    - unfold upd. destruct (Nat.eqb_spec j q) as [->|D]; [rewrite Nat.eqb_refl; auto|].
      destruct (Nat.eqb_spec (nth j (ginputs g) 0%nat) (nth q (ginputs g) 0%nat)) as [E|E]; [|auto]. exfalso. apply D. apply gk_in_inj; auto.
    - rewrite upd_other by (intros X; symmetry in X; revert X; apply gk_in_out; auto). auto.
  Qed.
  Lemma bits_both : forall i y, (forall j, (j < nin g)%nat -> bits (ginputs g) (goutputs g) i y (nth j (ginputs g) 0%nat) = i j) /\
    (forall j, (j < nout g)%nat -> bits (ginputs g) (goutputs g) i y (nth j (goutputs g) 0%nat) = y j).
  Proof. intros. split; [apply bits_in'|apply bits_out']. Qed.
  Lemma val_upd : forall i y q c, (q < nout g)%nat -> sem g (upd (bits (ginputs g) (goutputs g) i y) (nth q (goutputs g) 0%nat) c) = val g i (upd y q c).
  Proof. intros i y q c Q. destruct (upd_outs _ i y q c Q (bits_both i y)). apply sem_val; auto. Qed.
  Lemma val_upd2 : forall i y q1 q2 a c, (q1 < nout g)%nat -> (q2 < nout g)%nat ->
    sem g (upd (upd (bits (ginputs g) (goutputs g) i y) (nth q1 (goutputs g) 0%nat) a) (nth q2 (goutputs g) 0%nat) c) = val g i (upd (upd y q1 a) q2 c).
  Proof. intros i y q1 q2 a c Q1 Q2. destruct (upd_outs _ _ _ q2 c Q2 (upd_outs _ i y q1 a Q1 (bits_both i y))). apply sem_val; auto. Qed.
  Lemma val_upd_in2 : forall i y q1 q2 a c, (q1 < nin g)%nat -> (q2 < nin g)%nat ->
    sem g (upd (upd (bits (ginputs g) (goutputs g) i y) (nth q1 (ginputs g) 0%nat) a) (nth q2 (ginputs g) 0%nat) c) = val g (upd (upd i q1 a) q2 c) y.
  Proof. intros i y q1 q2 a c Q1 Q2. destruct (upd_ins _ _ _ q2 c Q2 (upd_ins _ i y q1 a Q1 (bits_both i y))). apply sem_val; auto. Qed.
  Lemma val_local : forall i, local (nout g) (val g i).
  Proof. intros i x y A. apply val_ext; try apply G; auto. Qed.
End Ok.

(** ** Splitting gates off *)
(** [gs]: the gates in the order in which they are split off the outputs *)
Definition ext (g g' : graph) (gs : list gate) : Prop :=
  ginputs g' = ginputs g /\ goutputs g' = goutputs g /\ Forall (gate_in (nout g)) gs /\
  exists z, z <> C0 /\ forall i y, val g i y = z * cden (rev gs) (val g' i) y.
Lemma Cmult_neq0 : forall a b, a <> C0 -> b <> C0 -> a * b <> C0.
Proof.
  intros a b A B H. apply B. assert (X : / a * (a * b) = C0) by (rewrite H; ring).
  rewrite <- X. rewrite Cmult_assoc, Cinv_l by auto. ring.
Qed.
Lemma ext_refl : forall g, ext g g [].
Proof. intros g. split; auto. split; auto. split; [constructor|]. exists C1. split; [apply C1_neq_C0|]. intros. simpl. ring. Qed.
Lemma ext_trans : forall a b c gs gs', ext a b gs -> ext b c gs' -> ext a c (gs ++ gs').
Proof.
  intros a b c gs gs' [I1 [O1 [F1 [z1 [Z1 H1]]]]] [I2 [O2 [F2 [z2 [Z2 H2]]]]]. split; [congruence|]. split; [congruence|].
  split; [apply Forall_app; split; auto; unfold nout in *; rewrite O1 in F2; auto|].
  exists (z1 * z2). split; [apply Cmult_neq0; auto|]. intros i y. rewrite H1, rev_app_distr, cden_app.
  replace (val b i) with (fun y => z2 * cden (rev gs') (val c i) y) by (apply functional_extensionality; auto).
  rewrite cden_scale. ring.
Qed.
Lemma ext_sem : forall g g', gok g -> ginputs g' = ginputs g -> goutputs g' = goutputs g -> (exists z, z <> C0 /\ forall b, sem g b = z * sem g' b) -> ext g g' [].
Proof.
  intros g g' G I O [z [Z H]]. split; auto. split; auto. split; [constructor|]. exists z. split; auto.
  intros i y. unfold val. rewrite H, I, O. auto.
Qed.
Lemma cden_zero' : forall l x, cden l (fun _ => C0) x = C0.
Proof.
  intros l x. transitivity (cden l (fun x => C0 * (fun _ => C0) x) x); [|rewrite cden_scale; ring].
  f_equal. apply functional_extensionality. intros; ring.
Qed.
Lemma ext_onto : forall g g' gs, gok g' -> ext g g' gs -> onto g -> onto g'.
Proof.
  intros g g' gs G' [I [O [F [z [Z H]]]]] S s Ls.
  assert (FG : forall x, In x (rev gs) -> gate_in (nout g) x) by (intros x X; apply in_rev in X; rewrite Forall_forall in F; auto).
  assert (On : nout g' = nout g) by (unfold nout; rewrite O; auto). assert (In_ : nin g' = nin g) by (unfold nin; rewrite I; auto).
  destruct (S (cden (rev gs) s)) as [a A]. { rewrite On in Ls. apply cden_local; auto. }
  exists (fun i => z * a i). intros y. rewrite In_.
  assert (D : forall y, cden (rev gs) (fun y => s y + - C1 * sumv (seq 0 (nin g)) (fun i => z * a i * val g' i y) zerob) y = C0).
  { intros y'. rewrite (cden_plus (rev gs) s), cden_scale, cden_sumv, A.
    replace (sumv (seq 0 (nin g)) (fun i => a i * val g i y') zerob) with (sumv (seq 0 (nin g)) (fun i => z * a i * cden (rev gs) (val g' i) y') zerob); [ring|].
    apply sumv_ext. intros i. rewrite H. ring. }
  assert (X := cden_inj (nout g) (rev gs) _ FG D y). cbv beta in X.
  transitivity (s y + - C1 * sumv (seq 0 (nin g)) (fun i => z * a i * val g' i y) zerob + sumv (seq 0 (nin g)) (fun i => z * a i * val g' i y) zerob); [ring|]. rewrite X. ring.
Qed.
Lemma ext_oneone : forall g g' gs, ext g g' gs -> oneone g -> oneone g'.
Proof.
  intros g g' gs [I [O [F [z [Z H]]]]] J a A i Hi. assert (In_ : nin g' = nin g) by (unfold nin; rewrite I; auto). rewrite In_ in *.
  apply (J a); auto. intros y.
  transitivity (z * cden (rev gs) (fun y => sumv (seq 0 (nin g)) (fun i => a i * val g' i y) zerob) y).
  - rewrite cden_sumv, <- sumv_scal. apply sumv_ext. intros i'. rewrite H. ring.
  - replace (fun y0 : assignment => sumv (seq 0 (nin g)) (fun i0 => a i0 * val g' i0 y0) zerob) with (fun _ : assignment => C0) by (apply functional_extensionality; intros; rewrite A; auto).
    rewrite cden_zero'. ring.
Qed.

(** ** Boundaries sharing a neighbour *)
Definition sum4 (h F : bool -> bool -> C) : C :=
  h false false * F false false + h false true * F false true + h true false * F true false + h true true * F true true.
Definition nz4 (h : bool -> bool -> C) : Prop := exists a c, h a c <> C0.
Lemma m1_neq0 : - C1 <> C0.
Proof. intros H. apply C1_neq_C0. transitivity (- - C1); [ring|]. rewrite H. ring. Qed.
Definition h2 (p q r s : C) : bool -> bool -> C := fun a c => if a then (if c then s else r) else (if c then q else p).
Lemma kern2 : forall e1 e2, exists h, nz4 h /\ forall k v, sum4 h (fun a c => k * (wt (Some e1) v a * wt (Some e2) v c)) = C0.
Proof.
  intros [] [].
  - exists (h2 C0 C1 C0 C0). split; [exists false, true; apply C1_neq_C0|]. intros k []; unfold sum4, h2, wt, dlt; simpl; ring.
  - exists (h2 C1 (- C1) C0 C0). split; [exists false, false; apply C1_neq_C0|]. intros k []; unfold sum4, h2, wt, dlt; simpl; ring.
  - exists (h2 C1 C0 (- C1) C0). split; [exists false, false; apply C1_neq_C0|]. intros k []; unfold sum4, h2, wt, dlt; simpl; ring.
  - exists (h2 C0 C1 (- C1) C0). split; [exists false, true; apply C1_neq_C0|]. intros k []; unfold sum4, h2, wt, dlt; simpl; ring.
Qed.
Lemma kern1 : forall e, exists h, nz4 h /\ forall k, sum4 h (fun a c => k * wt (Some e) a c) = C0.
Proof.
  intros [].
  - exists (h2 C0 C1 C0 C0). split; [exists false, true; apply C1_neq_C0|]. intros k; unfold sum4, h2, wt, dlt; simpl; ring.
  - exists (h2 C1 (- C1) C0 C0). split; [exists false, false; apply C1_neq_C0|]. intros k; unfold sum4, h2, wt; simpl; ring.
Qed.
Lemma sumv_sum4 : forall l h (F : bool -> bool -> assignment -> C) b, sum4 h (fun a c => sumv l (F a c) b) = sumv l (fun x => sum4 h (fun a c => F a c x)) b.
Proof. intros. unfold sum4. rewrite <- !sumv_scal, <- !sumv_plus. auto. Qed.
Lemma sum4_ext : forall h F F', (forall a c, F a c = F' a c) -> sum4 h F = sum4 h F'.
Proof. intros h F F' H. unfold sum4. rewrite !H. auto. Qed.

Lemma two_bnd : forall g v o1 o2, gok g -> o1 <> o2 -> In o1 (vertices g) -> In o2 (vertices g) -> vty g o1 = BOUNDARY -> vty g o2 = BOUNDARY ->
  edge_type g v o1 <> None -> edge_type g v o2 <> None -> exists h, nz4 h /\ forall b, sum4 h (fun a c => sem g (upd (upd b o1 a) o2 c)) = C0.
Proof.
  intros g v o1 o2 G D I1 I2 T1 T2 E1 E2. assert (W := gk_wf g G). assert (BD := gk_deg g G). assert (NL := gk_nl g G).
  destruct (bdeg_nb g o1 W BD I1 T1) as [_ HB1]. destruct (bdeg_nb g o2 W BD I2 T2) as [_ HB2].
  assert (N1 : v = nb g o1) by (apply HB1; rewrite wf_sym; auto). assert (N2 : v = nb g o2) by (apply HB2; rewrite wf_sym; auto).
  assert (D1 : v <> o1) by (intros ->; rewrite NL in E1; congruence). assert (D2 : v <> o2) by (intros ->; rewrite NL in E2; congruence).
  assert (Iv : In v (vertices g)) by (destruct (edge_type g v o1) eqn:X; [eapply edge_in_l; eauto|congruence]).
  destruct (edge_type g v o1) as [e1|] eqn:X1; [|congruence]. destruct (edge_type g v o2) as [e2|] eqn:X2; [|congruence].
  destruct (kern2 e1 e2) as [h [Hn Hk]]. exists h. split; auto. intros b.
  set (K := fun x => to_number (gscalar g) * part g (without [o1; o2] (vertices g)) x).
  rewrite (sum4_ext h _ (fun a c => sumv (internal g) (fun x => K x * (wt (Some e1) (x v) a * wt (Some e2) (x v) c)) b)).
  - rewrite sumv_sum4. rewrite (sumv_ext _ _ (fun _ => C0)) by (intros; apply Hk). apply sumv_0.
  - intros a c. unfold sem. rewrite !sumv_upd_in by (apply notin_internal; auto). apply sumv_ext. intros x.
    rewrite integL_part, (part_cut g [o1; o2]); auto.
    + cbn [cprod]. rewrite <- N1, <- N2. rewrite !ew_plain by (apply gk_X; auto). rewrite X1, X2.
      rewrite upd_same, (upd_other _ o2 c o1), upd_same, !(upd_other _ _ _ v) by auto. unfold K.
      rewrite (part_agree g _ _ x); [ring|]. intros u Hu. apply in_without in Hu. destruct Hu as [_ Hu].
      rewrite !upd_other; auto; intros ->; apply Hu; simpl; auto.
    + repeat constructor; simpl; intuition congruence.
    + intros u [<-|[<-|[]]]; auto.
    + intros u w [<-|[<-|[]]] [<-|[<-|[]]]; try apply NL.
      * destruct (edge_type g o1 o2) eqn:Y; auto. exfalso. apply D2. rewrite N1. symmetry. apply HB1. congruence.
      * destruct (edge_type g o2 o1) eqn:Y; auto. exfalso. apply D1. rewrite N2. symmetry. apply HB2. congruence.
Qed.
Lemma two_wire : forall g o1 o2, gok g -> In o1 (vertices g) -> In o2 (vertices g) -> vty g o1 = BOUNDARY -> vty g o2 = BOUNDARY ->
  edge_type g o1 o2 <> None -> exists h, nz4 h /\ forall b, sum4 h (fun a c => sem g (upd (upd b o1 a) o2 c)) = C0.
Proof.
  intros g o1 o2 G I1 I2 T1 T2 E. assert (W := gk_wf g G). assert (BD := gk_deg g G). assert (NL := gk_nl g G).
  assert (D : o1 <> o2) by (intros ->; apply E; apply NL).
  destruct (bdeg_nb g o1 W BD I1 T1) as [_ HB1]. destruct (bdeg_nb g o2 W BD I2 T2) as [_ HB2].
  assert (N1 : o2 = nb g o1) by (apply HB1; auto). assert (N2 : o1 = nb g o2) by (apply HB2; rewrite wf_sym; auto).
  destruct (edge_type g o1 o2) as [e|] eqn:X; [|congruence].
  destruct (kern1 e) as [h [Hn Hk]]. exists h. split; auto. intros b.
  set (V' := without [o1; o2] (vertices g)).
  assert (NV : forall u, In u V' -> u <> o1 /\ u <> o2).
  { intros u Hu. apply in_without in Hu. destruct Hu as [_ Hu]. simpl in Hu. split; intros ->; tauto. }
  assert (P : Permutation (vertices g) ([o1; o2] ++ V')).
  { rewrite Permutation_app_comm. apply without_perm; [apply W|repeat constructor; simpl; intuition congruence|].
    intros u [<-|[<-|[]]]; auto. }
  rewrite (sum4_ext h _ (fun a c => sumv (internal g) (fun x => integL V' g x * wt (Some e) a c) b)).
  - rewrite sumv_sum4. rewrite (sumv_ext _ _ (fun _ => C0)) by (intros; apply Hk). apply sumv_0.
  - intros a c. unfold sem. rewrite !sumv_upd_in by (apply notin_internal; auto). apply sumv_ext. intros x.
    rewrite (integL_perm g _ _ _ W P), integL_app, !integL_indep by (intros Y; apply NV in Y; tauto).
    cbn [cprod pprod]. unfold pw, isB. rewrite T1, T2. cbn [vtype_eqb].
    rewrite !(cprod_1 _ _ V').
    + rewrite ew_plain, X by (apply gk_X; auto). rewrite upd_same, (upd_other _ o2 c o1), upd_same by auto. ring.
    + intros u Hu. unfold ew. destruct (edge_type g o2 u) eqn:Y; auto. exfalso. destruct (NV u Hu) as [A _]. apply A. rewrite N2. apply HB2. congruence.
    + intros u Hu. unfold ew. destruct (edge_type g o1 u) eqn:Y; auto. exfalso. destruct (NV u Hu) as [_ A]. apply A. rewrite N1. apply HB1. congruence.
Qed.
Lemma onto_no : forall g q1 q2 h, onto g -> (q1 < nout g)%nat -> (q2 < nout g)%nat -> q1 <> q2 -> nz4 h ->
  ~ forall i y, sum4 h (fun a c => val g i (upd (upd y q1 a) q2 c)) = C0.
Proof.
  intros g q1 q2 h S Q1 Q2 D [a0 [c0 N]] H. apply N.
  destruct (S (fun y => dlt (y q1) a0 * dlt (y q2) c0)) as [w A]. { intros x y X. rewrite !X; auto. }
  assert (B : sum4 h (fun a c => (fun y => dlt (y q1) a0 * dlt (y q2) c0) (upd (upd zerob q1 a) q2 c)) = C0).
  { rewrite (sum4_ext h _ (fun a c => sumv (seq 0 (nin g)) (fun i => w i * val g i (upd (upd zerob q1 a) q2 c)) zerob)) by (intros; apply A).
    rewrite sumv_sum4. rewrite (sumv_ext _ _ (fun _ => C0)); [apply sumv_0|]. intros x.
    transitivity (w x * sum4 h (fun a c => val g x (upd (upd zerob q1 a) q2 c))); [unfold sum4; ring|]. rewrite H. ring. }
  cbv beta in B. unfold sum4 in B. rewrite !upd_same, !(upd_other _ q2 _ q1), !upd_same in B by auto.
  rewrite <- B. destruct a0, c0; unfold dlt; simpl; ring.
Qed.
Lemma oneone_no : forall g q1 q2 h, oneone g -> (q1 < nin g)%nat -> (q2 < nin g)%nat -> q1 <> q2 -> nz4 h ->
  ~ forall i y, sum4 h (fun a c => val g (upd (upd i q1 a) q2 c) y) = C0.
Proof.
  intros g q1 q2 h J Q1 Q2 D [a0 [c0 N]] H. apply N.
  assert (X := J (fun i => h (i q1) (i q2))). cbv beta in X.
  replace (h a0 c0) with (h (upd (upd zerob q1 a0) q2 c0 q1) (upd (upd zerob q1 a0) q2 c0 q2)) by (rewrite upd_same, upd_other, upd_same by auto; auto).
  apply X.
  - intros y. set (R := without [q1; q2] (seq 0 (nin g))).
    rewrite (sumv_perm _ (R ++ [q1; q2])); [|apply without_perm|apply seq_NoDup].
    + rewrite sumv_app. rewrite (sumv_ext R _ (fun _ => C0)); [apply sumv_0|]. intros x. cbn [sumv].
      rewrite !upd_same, !(upd_other _ q2 _ q1), !upd_same by auto. rewrite <- (H x y). unfold sum4. ring.
    + apply seq_NoDup. + repeat constructor; simpl; intuition congruence.
    + intros u [<-|[<-|[]]]; apply in_seq; lia.
  - intros j Hj. rewrite !upd_other by lia. auto.
Qed.

Record inv_map (g : graph) : Prop := mkinvm { im_onto : onto g; im_one : oneone g }.
Section Inv.
  Variable g : graph.
  Hypothesis G : gok g.
  Hypothesis M : inv_map g.
  Notation o_ q := (nth q (goutputs g) 0%nat).
  Lemma one_out : forall v q1 q2, (q1 < nout g)%nat -> (q2 < nout g)%nat -> edge_type g v (o_ q1) <> None -> edge_type g v (o_ q2) <> None -> q1 = q2.
  Proof.
    intros v q1 q2 Q1 Q2 E1 E2. destruct (Nat.eq_dec q1 q2) as [|D]; auto. exfalso.
    destruct (gk_out g G q1 Q1) as [I1 T1]. destruct (gk_out g G q2 Q2) as [I2 T2].
    destruct (two_bnd g v (o_ q1) (o_ q2)) as [h [Hn Hk]]; auto. { intros X. apply D. apply (gk_out_inj g G); auto. }
    apply (onto_no g q1 q2 h (im_onto _ M) Q1 Q2 D Hn). intros i y.
    rewrite <- (Hk (bits (ginputs g) (goutputs g) i y)). apply sum4_ext. intros a c. rewrite (val_upd2 g G) by auto. auto.
  Qed.
  Lemma no_out_wire : forall q1 q2, (q1 < nout g)%nat -> (q2 < nout g)%nat -> edge_type g (o_ q1) (o_ q2) = None.
  Proof.
    intros q1 q2 Q1 Q2. destruct (edge_type g (o_ q1) (o_ q2)) eqn:E; auto. exfalso.
    assert (D : q1 <> q2) by (intros ->; rewrite (gk_nl g G) in E; discriminate).
    destruct (gk_out g G q1 Q1) as [I1 T1]. destruct (gk_out g G q2 Q2) as [I2 T2].
    destruct (two_wire g (o_ q1) (o_ q2)) as [h [Hn Hk]]; auto; [congruence|].
    apply (onto_no g q1 q2 h (im_onto _ M) Q1 Q2 D Hn). intros i y.
    rewrite <- (Hk (bits (ginputs g) (goutputs g) i y)). apply sum4_ext. intros a c. rewrite (val_upd2 g G) by auto. auto.
  Qed.
  Lemma one_in : forall v u1 u2, In u1 (ginputs g) -> In u2 (ginputs g) -> edge_type g v u1 <> None -> edge_type g v u2 <> None -> u1 = u2.
  Proof.
    intros v u1 u2 H1 H2 E1 E2. destruct (In_nth _ _ 0%nat H1) as [q1 [Q1 <-]]. destruct (In_nth _ _ 0%nat H2) as [q2 [Q2 <-]].
    destruct (Nat.eq_dec q1 q2) as [->|D]; auto. exfalso.
    destruct (gk_in g G q1 Q1) as [I1 T1]. destruct (gk_in g G q2 Q2) as [I2 T2].
    destruct (two_bnd g v (nth q1 (ginputs g) 0%nat) (nth q2 (ginputs g) 0%nat)) as [h [Hn Hk]]; auto. { intros X. apply D. apply (gk_in_inj g G); auto. }
    apply (oneone_no g q1 q2 h (im_one _ M) Q1 Q2 D Hn). intros i y.
    rewrite <- (Hk (bits (ginputs g) (goutputs g) i y)). apply sum4_ext. intros a c. rewrite (val_upd_in2 g G) by auto. auto.
  Qed.
  Lemma one_outs : forall v o1 o2, In o1 (goutputs g) -> In o2 (goutputs g) -> edge_type g v o1 <> None -> edge_type g v o2 <> None -> o1 = o2.
  Proof.
    intros v u1 u2 H1 H2 E1 E2. destruct (In_nth _ _ 0%nat H1) as [q1 [Q1 <-]]. destruct (In_nth _ _ 0%nat H2) as [q2 [Q2 <-]].
    rewrite (one_out v q1 q2); auto.
  Qed.
End Inv.
Lemma ext_inv : forall g g' gs, gok g' -> ext g g' gs -> inv_map g -> inv_map g'.
Proof. intros g g' gs G E [A B]. split; [eapply ext_onto; eauto|eapply ext_oneone; eauto]. Qed.

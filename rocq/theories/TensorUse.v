(** Consequences of tensorfy_ok, and diagrams on which tensorfy raises *)
From Coq Require Import Reals ZArith QArith Qcanon List Bool Arith Lia Lra Permutation FunctionalExtensionality.
From Verif Require Import CNum Base ScalarModel ScalarProofs GraphModel RulesModel GraphSem SumLemmas GraphProofs RuleLemmas TotalProofs VerifyProofs GraphAlgProofs RunEx ZXFacts AlgUse
  TensorModel TensorNp TensorSpider TensorPos TensorForm TensorStep TensorProofs TensorOps.
Import ListNotations.
Open Scope nat_scope.

(** index of an entry: output bits [y], input bits [i] *)
Definition at_bits (g : graph) (y i : nat -> bool) : list bool := map y (seq 0 (length (goutputs g))) ++ map i (seq 0 (length (ginputs g))).
Lemma at_bits_sem : forall g i y, io_ok g ->
  map (bits (ginputs g) (goutputs g) i y) (goutputs g) ++ map (bits (ginputs g) (goutputs g) i y) (ginputs g) = at_bits g y i.
Proof.
  intros g i y IO. unfold at_bits. f_equal; (apply nth_ext with (d := false) (d' := false); [rewrite !map_length, seq_length; auto|]); intros j J; rewrite map_length in J; rewrite nth_ms by auto;
  rewrite (nth_indep _ _ (bits (ginputs g) (goutputs g) i y 0)) by (rewrite map_length; auto); rewrite map_nth; [apply bits_out|apply bits_in]; auto.
Qed.
Lemma tensorfy_val : forall g up, zinv g -> io_ok g -> no_iso_x g -> layout g ->
  exists T, tensorfy g true up = Ok T /\ tshape T = repeat 2 (length (goutputs g) + length (ginputs g)) /\ forall i y, tent T (at_bits g y i) = val g i y.
Proof.
  intros g up Z IO NX LY. destruct (tensorfy_ok g true up Z IO NX LY) as [T [q [E [S [_ [Q V]]]]]]. exists T. do 2 (split; [auto|]). intros i y. rewrite <- at_bits_sem, V, (Q eq_refl) by auto. unfold val.
  change (RtoC 1) with C1. ring.
Qed.
Lemma tensorfy_unscaled : forall g up, zinv g -> io_ok g -> no_iso_x g -> layout g ->
  exists T q, tensorfy g false up = Ok T /\ tshape T = repeat 2 (length (goutputs g) + length (ginputs g)) /\ (0 < q)%R /\
    forall i y, (to_number (gscalar g) * tent T (at_bits g y i))%C = (RtoC q * val g i y)%C.
Proof.
  intros g up Z IO NX LY. destruct (tensorfy_ok g false up Z IO NX LY) as [T [q [E [S [P [_ V]]]]]]. exists T, q. do 3 (split; [auto|]). intros i y. rewrite <- at_bits_sem, V by auto. unfold val. rewrite sem_value. ring.
Qed.
Lemma at_bits_all : forall g ix, length ix = length (goutputs g) + length (ginputs g) -> ix = at_bits g (fun j => nth j ix false) (fun j => nth (length (goutputs g) + j) ix false).
Proof.
  intros g ix L. unfold at_bits. apply nth_ext with (d := false) (d' := false); [rewrite app_length, !map_length, !seq_length; auto|]. intros k K. destruct (lt_dec k (length (goutputs g))) as [A|A].
  - rewrite app_nth1 by (rewrite map_length, seq_length; auto). rewrite nth_ms; auto.
  - rewrite app_nth2 by (rewrite map_length, seq_length; lia). rewrite map_length, seq_length, nth_ms by lia. f_equal. lia.
Qed.
Lemma at_bits_len : forall g y i, length (at_bits g y i) = length (goutputs g) + length (ginputs g).
Proof. intros. unfold at_bits. rewrite app_length, !map_length, !seq_length. auto. Qed.
(** the positions of the vertices do not matter *)
Lemma tensorfy_rows : forall g g' up up' T T', zinv g -> io_ok g -> no_iso_x g -> layout g -> zinv g' -> io_ok g' -> no_iso_x g' -> layout g' ->
  gadj g' = gadj g -> gty g' = gty g -> gphase g' = gphase g -> gscalar g' = gscalar g -> ginputs g' = ginputs g -> goutputs g' = goutputs g ->
  tensorfy g true up = Ok T -> tensorfy g' true up' = Ok T' -> teq (length (goutputs g) + length (ginputs g)) T T'.
Proof.
  intros g g' up up' T T' Z IO NX LY Z' IO' NX' LY' E1 E2 E3 E4 E5 E6 H H'. destruct (tensorfy_val g up Z IO NX LY) as [t [A [_ B]]]. destruct (tensorfy_val g' up' Z' IO' NX' LY') as [t' [A' [_ B']]].
  rewrite H in A. rewrite H' in A'. injection A as <-. injection A' as <-. intros ix L. rewrite (at_bits_all g ix L), B. unfold at_bits in *. rewrite <- E5, <- E6, B'. unfold val. rewrite E5, E6. unfold sem, internal, integL, pw, ew, isX, isB, vertices, vty, phase, edge_type. rewrite E1, E2, E3, E4. auto.
Qed.
Lemma matrix_val : forall g up T bi bo, zinv g -> io_ok g -> no_iso_x g -> layout g -> tensorfy g true up = Ok T -> length bi = length (ginputs g) -> length bo = length (goutputs g) ->
  let M := tensor_to_matrix T (length (ginputs g)) (length (goutputs g)) in
  length M = 2 ^ length (goutputs g) /\ (forall r, In r M -> length r = 2 ^ length (ginputs g)) /\
  nth (bval bi) (nth (bval bo) M []) C0 = val g (fun j => nth j bi false) (fun j => nth j bo false).
Proof.
  intros g up T bi bo Z IO NX LY H Li Lo. cbv zeta. destruct (matrix_size T (length (ginputs g)) (length (goutputs g))) as [A B]. do 2 (split; [auto|]). rewrite matrix_entry by auto.
  destruct (tensorfy_val g up Z IO NX LY) as [t [E [_ V]]]. rewrite H in E. injection E as <-. rewrite <- V. f_equal. unfold at_bits. rewrite <- Li, <- Lo.
  f_equal; (apply nth_ext with (d := false) (d' := false); [rewrite map_length, seq_length; auto|]; intros k K; rewrite nth_ms; auto).
Qed.
(** comparing the tensors of two diagrams *)
Lemma compare_diagrams : forall g1 g2 up1 up2 T1 T2, zinv g1 -> io_ok g1 -> no_iso_x g1 -> layout g1 -> zinv g2 -> io_ok g2 -> no_iso_x g2 -> layout g2 ->
  length (ginputs g1) = length (ginputs g2) -> length (goutputs g1) = length (goutputs g2) -> tensorfy g1 true up1 = Ok T1 -> tensorfy g2 true up2 = Ok T2 ->
  (exists b, compare_tensors T1 T2 true = Ok b /\ (b = true <-> forall i y, val g1 i y = val g2 i y)) /\
  (((forall i y, val g1 i y = C0) /\ compare_tensors T1 T2 false = Err ValueError) \/
   exists b, compare_tensors T1 T2 false = Ok b /\ (b = true <-> exists c, c <> C0 /\ forall i y, val g1 i y = (c * val g2 i y)%C)).
Proof.
  intros g1 g2 up1 up2 T1 T2 Z1 IO1 NX1 LY1 Z2 IO2 NX2 LY2 EI EO H1 H2.
  destruct (tensorfy_val g1 up1 Z1 IO1 NX1 LY1) as [t1 [A1 [S1 V1]]]. rewrite H1 in A1. injection A1 as <-. destruct (tensorfy_val g2 up2 Z2 IO2 NX2 LY2) as [t2 [A2 [S2 V2]]]. rewrite H2 in A2. injection A2 as <-.
  set (n := length (goutputs g1) + length (ginputs g1)) in *. assert (R1 : rank T1 = n) by (unfold rank; rewrite S1, repeat_length; auto). assert (R2 : rank T2 = n) by (unfold rank, n; rewrite S2, repeat_length; lia).
  assert (V2' : forall i y, tent T2 (at_bits g1 y i) = val g2 i y) by (intros i y; rewrite <- V2; unfold at_bits; rewrite EI, EO; auto).
  assert (Q : forall c, (forall ix, length ix = n -> tent T1 ix = (c * tent T2 ix)%C) <-> forall i y, val g1 i y = (c * val g2 i y)%C).
  { intros c. split; [intros H i y; rewrite <- V1, <- V2'; apply H, at_bits_len|]. intros H ix L. rewrite (at_bits_all g1 ix L), V1, V2'. auto. }
  split.
  - destruct (compare_scalar T1 T2 n R1 R2) as [b [E B]]. exists b. split; auto. rewrite B. unfold teq. split.
    + intros H i y. rewrite <- V1, <- V2'. apply H, at_bits_len.
    + intros H ix L. rewrite (at_bits_all g1 ix L), V1, V2'. auto.
  - destruct (compare_ok T1 T2 n R1 R2) as [[Z [_ E]]|[b [E B]]].
    + left. split; auto. intros i y. rewrite <- V1. apply Z, at_bits_len.
    + right. exists b. split; auto. rewrite B. split; intros [c [NC H]]; exists c; (split; [auto|]); apply Q; auto.
Qed.

(** ** Examples *)
Definition layoutb (g : graph) : bool := forallb (fun i => forallb (fun n => before g i n && negb (nmem n (ginputs g))) (neighbors g i)) (ginputs g).
Lemma layoutb_ok : forall g, layoutb g = true -> layout g.
Proof.
  intros g H i n I E. unfold layoutb in H. rewrite forallb_forall in H. specialize (H i I). rewrite forallb_forall in H. specialize (H n (proj2 (neighbors_spec _ _ _) E)). apply andb_true_iff in H.
  destruct H as [A B]. split; auto. apply nmem_false, negb_true_iff; auto.
Qed.
Definition no_iso_xb (g : graph) : bool := forallb (fun v => negb (vtype_eqb (vty g v) XSP) || negb (Nat.eqb (length (neighbors g v)) 0)) (vertices g).
Lemma no_iso_xb_ok : forall g, no_iso_xb g = true -> no_iso_x g.
Proof.
  intros g H v Hv T E. unfold no_iso_xb in H. rewrite forallb_forall in H. specialize (H v Hv). rewrite T, E in H. discriminate.
Qed.
Definition set_rows (rs : list Qc) (g : graph) : graph := mkG (gadj g) (gvindex g) (gnedges g) (gty g) (gphase g) (gqindex g) (combine (seq 0 (length rs)) rs) (ginputs g) (goutputs g) (gscalar g).
(** a CNOT with a T gate on the control and a Hadamard on the target, drawn from right to left except for the inputs *)
Definition ex_tensor (rs : list Qc) : graph := set_rows rs (mkgraph
  [(BOUNDARY, 0%Qc); (BOUNDARY, 0%Qc); (ZSP, frac 1 4); (XSP, 0%Qc); (BOUNDARY, 0%Qc); (BOUNDARY, 0%Qc)]
  [(0,2,SIMPLE); (1,3,SIMPLE); (2,3,SIMPLE); (2,4,SIMPLE); (3,5,HADAMARD)] [0; 1] [4; 5]).
Definition rows1 : list Qc := [0%Qc; 0%Qc; 1%Qc; 1%Qc; frac 2 1; frac 2 1].
Definition rows2 : list Qc := [0%Qc; 0%Qc; frac 3 1; frac 5 2; frac 2 1; 1%Qc].
Lemma ex_tensor_ok : forall rs, rs = rows1 \/ rs = rows2 -> zinv (ex_tensor rs) /\ io_ok (ex_tensor rs) /\ no_iso_x (ex_tensor rs) /\ layout (ex_tensor rs).
Proof.
  intros rs [-> | ->]; (split; [apply zinvb_ok; vm_compute; reflexivity|]); (split; [apply io_okb_ok; vm_compute; reflexivity|]); (split; [apply no_iso_xb_ok; vm_compute; reflexivity|apply layoutb_ok; vm_compute; reflexivity]).
Qed.
Definition ex_iso_x : graph := mkgraph [(BOUNDARY, 0%Qc); (BOUNDARY, 0%Qc); (XSP, frac 1 4)] [(0,1,SIMPLE)] [0] [1].
Lemma iso_x_raises : exists g, zinv g /\ io_ok g /\ layout g /\ forall up, tensorfy g true up = Err ValueError.
Proof.
  exists ex_iso_x. split; [apply zinvb_ok; vm_compute; reflexivity|]. split; [apply io_okb_ok; vm_compute; reflexivity|]. split; [apply layoutb_ok; vm_compute; reflexivity|].
  intros up. vm_compute. reflexivity.
Qed.
(** a Z spider to the left of the input it is connected to *)
Definition ex_late : graph := set_rows [frac 5 1; 1%Qc; frac 6 1] (mkgraph [(BOUNDARY, 0%Qc); (ZSP, frac 1 4); (BOUNDARY, 0%Qc)] [(0,1,SIMPLE); (1,2,SIMPLE)] [0] [2]).
Lemma late_raises : exists g, zinv g /\ io_ok g /\ no_iso_x g /\ forall up, tensorfy g true up = Err ValueError.
Proof.
  exists ex_late. split; [apply zinvb_ok; vm_compute; reflexivity|]. split; [apply io_okb_ok; vm_compute; reflexivity|]. split; [apply no_iso_xb_ok; vm_compute; reflexivity|].
  intros up. vm_compute. reflexivity.
Qed.
(** broadcasting: the number 1 and the vector (1, 1) *)
Definition ex_num : graph := mkgraph [] [] [] [].
Definition ex_vec : graph := mkgraph [(ZSP, 0%Qc); (BOUNDARY, 0%Qc)] [(0,1,SIMPLE)] [] [1].
Lemma ex_num_val : forall i y, val ex_num i y = C1.
Proof. intros. unfold val, sem. change (internal ex_num) with (@nil nat). change (vertices ex_num) with (@nil nat). unfold integL. change (gscalar ex_num) with scalar_init. rewrite scalar_init_number. cbn [sumv cprod pprod]. ring. Qed.
Lemma ex_vec_val : forall i y, val ex_vec i y = C1.
Proof.
  intros i y. unfold val. set (b := bits _ _ _ _). clearbody b. unfold sem.
  change (internal ex_vec) with [0]. change (vertices ex_vec) with [0; 1]. unfold integL. change (gscalar ex_vec) with scalar_init. rewrite scalar_init_number.
  cbn [sumv cprod pprod]. unfold pw, ew. change (isB ex_vec 0) with false. change (isB ex_vec 1) with true. change (phase ex_vec 0) with 0%Qc. change (isX ex_vec 0) with false. change (isX ex_vec 1) with false.
  change (edge_type ex_vec 0 1) with (Some SIMPLE). cbn [xorb option_map tog wt]. unfold upd. cbn [Nat.eqb]. unfold ephase, dlt. rewrite cexp_0. destruct (b 1); cbn; ring.
Qed.
Lemma broadcast_equal : exists g1 g2, zinv g1 /\ io_ok g1 /\ no_iso_x g1 /\ layout g1 /\ zinv g2 /\ io_ok g2 /\ no_iso_x g2 /\ layout g2 /\ length (goutputs g1) <> length (goutputs g2) /\
  forall up1 up2 T1 T2, tensorfy g1 true up1 = Ok T1 -> tensorfy g2 true up2 = Ok T2 -> compare_tensors T1 T2 true = Ok true.
Proof.
  exists ex_num, ex_vec. assert (K : forall g, g = ex_num \/ g = ex_vec -> zinv g /\ io_ok g /\ no_iso_x g /\ layout g).
  { intros g [-> | ->]; (split; [apply zinvb_ok; vm_compute; reflexivity|]); (split; [apply io_okb_ok; vm_compute; reflexivity|]); (split; [apply no_iso_xb_ok; vm_compute; reflexivity|apply layoutb_ok; vm_compute; reflexivity]). }
  destruct (K ex_num (or_introl eq_refl)) as [Z1 [I1 [N1 L1]]], (K ex_vec (or_intror eq_refl)) as [Z2 [I2 [N2 L2]]]. do 8 (split; [auto|]). split; [vm_compute; discriminate|].
  intros up1 up2 T1 T2 H1 H2. destruct (tensorfy_val ex_num up1 Z1 I1 N1 L1) as [t1 [A1 [S1 V1]]]. rewrite H1 in A1. injection A1 as <-. destruct (tensorfy_val ex_vec up2 Z2 I2 N2 L2) as [t2 [A2 [S2 V2]]]. rewrite H2 in A2. injection A2 as <-.
  assert (R1 : rank T1 = 0) by (unfold rank; rewrite S1; reflexivity). assert (R2 : rank T2 = 1) by (unfold rank; rewrite S2; reflexivity).
  unfold compare_tensors, allclose. rewrite R1, R2. cbn [Nat.max all_ix map app forallb]. unfold bc. rewrite R1, R2. cbn [length Nat.sub skipn].
  assert (E1 : tent T1 [] = C1) by (rewrite <- (ex_num_val (fun _ => false) (fun _ => false)), <- V1; reflexivity).
  assert (E2 : forall b, tent T2 [b] = C1) by (intros b; rewrite <- (ex_vec_val (fun _ => false) (fun _ => b)), <- V2; reflexivity).
  rewrite E1, !E2. destruct (C_eq_dec C1 C1); [reflexivity|congruence].
Qed.

(** Architectures used as concrete cases for the routing theorems. *)
From Coq Require Import List Bool Arith Lia.
From Verif Require Import Base LinModel LinProofs LinAlg LinFacts RouteModel RouteProofs RouteTree RouteEch RouteTotal.
Import ListNotations.

Definition nbs (es : list edge) (v : nat) : list nat :=
  flat_map (fun e => if Nat.eqb (fst e) v then [snd e] else if Nat.eqb (snd e) v then [fst e] else []) es.
(** an architecture with [n] vertices, the given edges and the identical placement *)
Definition plain (n : nat) (es : list edge) : arch := mkArch (seq 0 n) es (nbs es) (seq 0 n) (fun v => v).
Lemma plain_ok : forall n es, arch_ok (plain n es).
Proof.
  intros n es v w H. simpl in H. unfold nbs in H. apply in_flat_map in H. destruct H as [[a b] [H1 H2]]. simpl in H2.
  unfold joined. simpl. destruct (Nat.eqb_spec a v); [subst; destruct H2 as [<- | []]; auto |].
  destruct (Nat.eqb_spec b v); [subst; destruct H2 as [<- | []]; auto | destruct H2].
Qed.
Definition line2 := plain 2 [(0, 1)].
Definition line3 := plain 3 [(0, 1); (1, 2)].
(** a square 0-1-3-2 with a leg 2-4; at 0 the neighbour 2 comes first *)
Definition kite := plain 5 [(0, 2); (0, 1); (1, 3); (2, 3); (2, 4)].
Definition sid (l : list nat) := l.
Definition eid (l : list edge) := l.
Definition m2 : mat := [[true; true]; [false; true]].
Definition m3 : mat := [[true; true; true]; [false; true; true]; [true; false; true]].
Definition mkite : mat := [[true; false; false; false; false]; [false; true; false; false; false]; [false; false; true; false; false];
  [true; false; false; true; false]; [true; false; false; false; true]].

Lemma m2_full : steiner_gauss sid line2 true m2 = Ok ((m2, []), 2).
Proof. vm_compute. reflexivity. Qed.
Lemma m3_up : steiner_gauss sid line3 false m3 =
  Ok (([[true; true; true]; [false; true; false]; [false; false; true]], [(2, 1); (1, 2); (0, 1); (2, 1); (1, 2)]), 3).
Proof. vm_compute. reflexivity. Qed.
Lemma m3_rec : rec_steiner_gauss sid eid 20 line3 [2; 1; 0] true m3 =
  Ok (mat_id 3, [(2, 1); (1, 2); (0, 1); (2, 1); (1, 2); (2, 1); (1, 0); (2, 1)]).
Proof. vm_compute. reflexivity. Qed.
Definition kite_out : mat := [[true; false; false; false; false]; [true; true; false; false; false]; [false; false; true; false; true];
  [false; false; false; true; false]; [false; false; false; false; true]].
Lemma mkite_up : steiner_gauss sid kite false mkite =
  Ok ((kite_out, [(4, 2); (2, 4); (2, 3); (0, 1); (0, 2); (2, 4); (2, 3)]), 5).
Proof. vm_compute. reflexivity. Qed.

(** the shape that the doc string promises: echelon form, reduced with [full_reduce] *)
Theorem full_reduce_fails : exists so A m s r, arch_ok A /\ a_es A = [(0, 1)] /\ steiner_gauss so A true m = Ok (s, r) /\ r = 2 /\
  snd s = [] /\ (exists pcs, echelon (fst s) pcs) /\ ~ (exists pcs, echelon (fst s) pcs /\ reduced (fst s) pcs).
Proof.
  exists sid, line2, m2, (m2, []), 2. split; [apply plain_ok |]. split; [reflexivity |]. split; [exact m2_full |]. split; [reflexivity |]. split; [reflexivity |]. split.
  - exists [0; 1]. split; [| split].
    + intros [| [| i]] [| [| j]] H1 H2; simpl in *; lia.
    + intros [| [| i]] H; simpl in *; [| | lia]; (split; [unfold cols; simpl; lia | split; [reflexivity |]]).
      * intros j Hj. lia.
      * intros [| j] Hj; [reflexivity | lia].
    + intros i j H. simpl in H. apply (get_out_r 2 2); [| exact H]. split; [reflexivity |]. intros x [<- | [<- | []]]; reflexivity.
  - intros [pcs [[E1 [E2 E3]] R]]. simpl in *.
    destruct pcs as [| p [| q pcs]].
    + specialize (E3 0 0 ltac:(simpl; lia)). discriminate E3.
    + specialize (E3 1 1 ltac:(simpl; lia)). discriminate E3.
    + pose proof (E1 0 1 ltac:(lia) ltac:(simpl; lia)) as L. simpl in L.
      destruct (E2 1 ltac:(simpl; lia)) as [L2 _]. unfold cols in L2. simpl in L2.
      assert (q = 1) by lia. subst q. specialize (R 1 0 ltac:(simpl; lia) ltac:(lia)). discriminate R.
Qed.
(** ** Placed architectures *)
Lemma plain_placed : forall n es, NoDup es -> (forall a b, In (a, b) es -> a < b) -> placed (plain n es) n.
Proof.
  intros n es ND HL. split; [reflexivity |]. split; [reflexivity |]. split; [reflexivity |]. split.
  - intros v w. split; [apply plain_ok |]. unfold joined. simpl. unfold nbs. rewrite in_flat_map. intros [H | H].
    + exists (v, w). split; [exact H |]. simpl. rewrite Nat.eqb_refl. left. reflexivity.
    + exists (w, v). split; [exact H |]. simpl. apply HL in H. destruct (Nat.eqb_spec w v); [lia |]. rewrite Nat.eqb_refl. left. reflexivity.
  - intros v. simpl. revert ND HL. induction es as [| [a b] es IH]; intros ND HL; simpl; [constructor |]. inversion ND; subst.
    assert (IH' : NoDup (nbs es v)) by (apply IH; [assumption | intros; apply HL; right; auto]).
    assert (J : forall w, In w (nbs es v) -> In (v, w) es \/ In (w, v) es) by (intros w Hw; apply (plain_ok n es v w Hw)).
    pose proof (HL a b (or_introl eq_refl)) as Lab.
    destruct (Nat.eqb_spec a v) as [-> | N1]; simpl; [| destruct (Nat.eqb_spec b v) as [-> | N2]; simpl; [| exact IH']].
    + constructor; [| exact IH']. intros X. destruct (J b X) as [Y | Y]; [tauto |]. specialize (HL b v (or_intror Y)). lia.
    + constructor; [| exact IH']. intros X. destruct (J a X) as [Y | Y]; [| tauto]. specialize (HL v a (or_intror Y)). lia.
Qed.
Definition line (n : nat) : arch := plain n (map (fun i => (i, S i)) (seq 0 (n - 1))).
Lemma line_placed : forall n, placed (line n) n.
Proof.
  intros n. apply plain_placed.
  - apply FinFun.Injective_map_NoDup; [intros x y H; congruence | apply seq_NoDup].
  - intros a b H. apply in_map_iff in H. destruct H as [i [X _]]. inversion X. lia.
Qed.
Lemma line_line : forall n, is_line (line n) n.
Proof.
  intros n v w. unfold joined. simpl. rewrite !in_map_iff. split.
  - intros [[i [X Y]] | [i [X Y]]]; inversion X; subst; apply in_seq in Y; lia.
  - intros [H1 [H2 [-> | ->]]]; [left; exists v | right; exists w]; (split; [reflexivity | apply in_seq; lia]).
Qed.
Lemma kite_placed : placed kite 5.
Proof.
  apply plain_placed; [repeat constructor; simpl; intuition congruence |].
  intros a b H. simpl in H. repeat (destruct H as [H | H]; [inversion H; lia |]). destruct H.
Qed.
Definition all_edges (n : nat) : list edge := flat_map (fun i => map (fun k => (i, i + k)) (seq 1 (n - S i))) (seq 0 n).
Lemma all_edges_in : forall n a b, In (a, b) (all_edges n) <-> a < b < n.
Proof.
  intros n a b. unfold all_edges. rewrite in_flat_map. split.
  - intros [i [H1 H2]]. apply in_map_iff in H2. destruct H2 as [k [X Y]]. inversion X; subst. apply in_seq in H1, Y. lia.
  - intros H. exists a. split; [apply in_seq; lia |]. apply in_map_iff. exists (b - a). split; [f_equal; lia | apply in_seq; lia].
Qed.
Definition full (n : nat) : arch := plain n (nodup edge_dec (all_edges n)).
Lemma full_placed : forall n, placed (full n) n.
Proof. intros n. apply plain_placed; [apply NoDup_nodup |]. intros a b H. apply nodup_In, all_edges_in in H. lia. Qed.
Lemma full_complete : forall n, is_complete (full n) n.
Proof. intros n v w Hv Hw N. unfold joined. simpl. rewrite !nodup_In, !all_edges_in. lia. Qed.
Theorem upper_fails_placed : exists so A m s r, placed A 5 /\ (forall l x, In x (so l) <-> In x l) /\ rect 5 5 m /\
  steiner_gauss so A false m = Ok (s, r) /\ r = 5 /\ get (fst s) 1 0 = true /\ ~ (exists pcs, echelon (fst s) pcs).
Proof.
  exists sid, kite, mkite, (kite_out, [(4, 2); (2, 4); (2, 3); (0, 1); (0, 2); (2, 4); (2, 3)]), 5.
  split; [exact kite_placed |]. split; [intros; reflexivity |].
  split; [split; [reflexivity | intros x H; simpl in H; repeat (destruct H as [<- | H]; [reflexivity |]); destruct H] |].
  split; [exact mkite_up |]. split; [reflexivity |]. split; [reflexivity |].
  intros [pcs [E1 [E2 E3]]]. simpl in *.
  destruct pcs as [| p [| q pcs]].
  - specialize (E3 0 0 ltac:(simpl; lia)). discriminate E3.
  - specialize (E3 1 1 ltac:(simpl; lia)). discriminate E3.
  - pose proof (E1 0 1 ltac:(lia) ltac:(simpl; lia)) as L. simpl in L.
    destruct (E2 1 ltac:(simpl; lia)) as [_ [_ Z]]. simpl in Z. specialize (Z 0 ltac:(lia)). discriminate Z.
Qed.

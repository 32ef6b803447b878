(** Soundness of pivoting (one batch). *)
From Coq Require Import Reals ZArith QArith Qcanon List Bool Arith Lia Permutation Ring.
From Verif Require Import CNum Base ScalarModel ScalarProofs GraphModel GraphSem SumLemmas GraphProofs GraphOps RulesModel RuleLemmas SpiderProofs IsoProofs IdProofs LcompProofs.
Import ListNotations.
Open Scope nat_scope.
Open Scope C_scope.

Definition side_ok (g : graph) (v w : nat) (b : list nat) : Prop :=
  (b = [] \/ exists u, b = [u] /\ u <> w /\ edge_type g v u <> None /\ edge_type g w u = None) /\
  forall n, In n (neighbors g v) -> n <> w -> ~ In n b -> edge_type g v n = Some HADAMARD /\ vty g n = ZSP.
Definition pv_ok (g : graph) (m : pmatch) : Prop :=
  let '((v0,v1),(b0,b1)) := m in
  v0 <> v1 /\ vty g v0 = ZSP /\ vty g v1 = ZSP /\ edge_type g v0 v1 = Some HADAMARD /\
  is_pauli (phase g v0) = true /\ is_pauli (phase g v1) = true /\
  side_ok g v0 v1 b0 /\ side_ok g v1 v0 b1 /\ (b0 = [] \/ b1 = []).

Definition so_ok (so : list nat -> list nat) : Prop := forall l, Permutation (so l) l.
Lemma so_in : forall so l v, so_ok so -> In v (so l) <-> In v l.
Proof. intros. split; apply Permutation_in; [|apply Permutation_sym]; apply H. Qed.
Lemma so_nd : forall so l, so_ok so -> NoDup l -> NoDup (so l).
Proof. intros. eapply Permutation_NoDup; [apply Permutation_sym; apply H|auto]. Qed.

Lemma in_setminus : forall a b v, In v (setminus a b) <-> In v a /\ ~ In v b.
Proof. intros. unfold setminus. rewrite filter_In, negb_true_iff, nmem_false. tauto. Qed.
Lemma in_setinter : forall a b v, In v (setinter a b) <-> In v a /\ In v b.
Proof. intros. unfold setinter. rewrite filter_In, nmem_spec. tauto. Qed.
Lemma set_remove_ok : forall v l, In v l -> NoDup l -> exists l', set_remove v l = Ok l' /\ NoDup l' /\
  forall u, In u l' <-> In u l /\ u <> v.
Proof.
  intros v l I N. unfold set_remove. apply nmem_spec in I. rewrite I. eexists. split; [reflexivity|].
  split; [apply NoDup_filter; auto|]. intros u. rewrite filter_In, negb_true_iff, Nat.eqb_neq. tauto.
Qed.

Lemma pivot_sets_spec : forall so g g1 v0 v1 b0 b1, so_ok so -> wfg g -> gadj g1 = gadj g -> pv_ok g ((v0,v1),(b0,b1)) ->
  exists n0 n1 n2, pivot_sets so g1 ((v0,v1),(b0,b1)) = Ok (n0,n1,n2) /\
   pivot_sets so g ((v0,v1),(b0,b1)) = Ok (n0,n1,n2) /\
   NoDup n0 /\ NoDup n1 /\ NoDup n2 /\
   (forall u, In u n2 <-> (edge_type g v0 u <> None /\ u <> v1 /\ ~ In u b0) /\ (edge_type g v1 u <> None /\ u <> v0 /\ ~ In u b1)) /\
   (forall u, In u n0 <-> (edge_type g v0 u <> None /\ u <> v1 /\ ~ In u b0) /\ ~ (edge_type g v1 u <> None /\ u <> v0 /\ ~ In u b1)) /\
   (forall u, In u n1 <-> (edge_type g v1 u <> None /\ u <> v0 /\ ~ In u b1) /\ ~ (edge_type g v0 u <> None /\ u <> v1 /\ ~ In u b0)).
Proof.
  intros so g g1 v0 v1 b0 b1 SO W A [P1 [P2 [P3 [P4 [P5 [P6 [P7 [P8 P9]]]]]]]].
  assert (AUX : forall v w b, side_ok g v w b -> edge_type g v w <> None ->
    exists a, (forall gg, gadj gg = gadj g -> (let* a := neighbors_r gg v in let* a := set_remove w a in
       match b with [u] => set_remove u a | _ => Ok a end) = Ok a) /\ NoDup a /\
     forall u, In u a <-> edge_type g v u <> None /\ u <> w /\ ~ In u b).
  { intros v w b [S _] E.
    assert (NR : forall gg, gadj gg = gadj g -> neighbors_r gg v = Ok (neighbors g v)).
    { intros gg Agg. rewrite neighbors_r_ok.
      - unfold neighbors. rewrite Agg. reflexivity.
      - unfold vertices. rewrite Agg. exact (edge_type_in_l g v w E). }
    destruct (set_remove_ok w (neighbors g v)) as [a1 [X1 [X2 X3]]].
    { apply neighbors_spec; auto. } { apply neighbors_nd; auto. }
    destruct S as [->|[u [-> [S1 [S2 S3]]]]].
    - exists a1. split; [|split; auto].
      + intros gg Agg. rewrite NR by auto. simpl. rewrite X1. reflexivity.
      + intros x. rewrite X3, neighbors_spec. simpl. tauto.
    - destruct (set_remove_ok u a1) as [a2 [Y1 [Y2 Y3]]]; auto.
      { apply X3. rewrite neighbors_spec. auto. }
      exists a2. split; [|split; auto].
      + intros gg Agg. rewrite NR by auto. simpl. rewrite X1. simpl. rewrite Y1. reflexivity.
      + intros x. rewrite Y3, X3, neighbors_spec. simpl. intuition congruence. }
  destruct (AUX v0 v1 b0 P7) as [a0 [X1 [X2 X3]]]; [congruence|].
  destruct (AUX v1 v0 b1 P8) as [a1 [Y1 [Y2 Y3]]]; [rewrite (wf_sym g W); congruence|].
  assert (ALL : forall gg, gadj gg = gadj g -> pivot_sets so gg ((v0,v1),(b0,b1)) =
     Ok (so (setminus a0 (so (setinter a0 a1))), so (setminus a1 (so (setinter a0 a1))), so (setinter a0 a1))).
  { intros gg Agg. specialize (X1 gg Agg). specialize (Y1 gg Agg). unfold pivot_sets.
    inv_bind X1. inv_bind X1. inv_bind Y1. inv_bind Y1. rewrite E. cbn [bind]. rewrite E1. cbn [bind]. rewrite E0. cbn [bind].
    rewrite X1. cbn [bind]. rewrite E2. cbn [bind]. rewrite Y1. reflexivity. }
  exists (so (setminus a0 (so (setinter a0 a1)))), (so (setminus a1 (so (setinter a0 a1)))), (so (setinter a0 a1)).
  split; [apply ALL; auto|]. split; [apply ALL; auto|].
  split; [apply so_nd, NoDup_filter; auto|]. split; [apply so_nd, NoDup_filter; auto|]. split; [apply so_nd, NoDup_filter; auto|].
  assert (I2 : forall u, In u (so (setinter a0 a1)) <-> In u a0 /\ In u a1) by (intros; rewrite so_in, in_setinter by auto; tauto).
  split; [|split]; intros u.
  - rewrite I2, X3, Y3. tauto.
  - rewrite so_in, in_setminus, I2, X3, Y3 by auto. tauto.
  - rewrite so_in, in_setminus, I2, X3, Y3 by auto. tauto.
Qed.

(** ** the scalar and phase effect of one match *)
Definition pbit (a : Qc) : bool := negb (qeqb a 0%Qc).
Lemma pauli_ephase : forall a b, is_pauli a = true -> ephase a b = sgn (pbit a && b).
Proof.
  intros a b H. unfold is_pauli in H. apply orb_true_iff in H. rewrite !qeqb_eq in H. unfold pbit.
  destruct H as [->| ->].
  - rewrite ephase_0. reflexivity.
  - rewrite ephase_1. destruct b; reflexivity.
Qed.
Definition bw (g : graph) (v w : nat) (b : list nat) (y : assignment) : C :=
  match b with
  | [] => C1
  | u :: _ => match edge_type g v u with Some et => nw g (toggle_edge et) w u y | None => C1 end
  end.
Definition bpow (b0 b1 : list nat) (k0 k1 k2 : Z) : Z :=
  match b0, b1 with
  | [], [] => (- (k0 + k1 + 2 * k2 - 1))%Z
  | [], _ => (- (k1 + k2))%Z
  | _, _ => (- (k0 + k2))%Z
  end.
Definition pv_es (n0 n1 n2 : list nat) : list edge := list_prod n0 n1 ++ list_prod n1 n2 ++ list_prod n0 n2.
Definition pv_eff (so : list nat -> list nat) (g : graph) (m : pmatch) (y : assignment) : C :=
  let '((v0,v1),(b0,b1)) := m in
  match pivot_sets so g m with
  | Ok (n0,n1,n2) =>
    let k0 := Z.of_nat (length n0) in let k1 := Z.of_nat (length n1) in let k2 := Z.of_nat (length n2) in
    sq2p (k0 * k2 + k1 * k2 + k0 * k1) * cprod (fun v => ephase 1%Qc (y v)) n2
    * (if pbit (phase g v0) && pbit (phase g v1) then cexp 1%Qc else C1)
    * sq2p (bpow b0 b1 k0 k1 k2)
    * (cprod (fun v => ephase (phase g v0) (y v)) n1 * cprod (fun v => ephase (phase g v0) (y v)) n2)
    * (cprod (fun v => ephase (phase g v1) (y v)) n0 * cprod (fun v => ephase (phase g v1) (y v)) n2)
    * bw g v0 v1 b0 y * bw g v1 v0 b1 y
    * cprod (fun e => nw g HADAMARD (fst e) (snd e) y) (pv_es n0 n1 n2)
  | Err _ => C0
  end.
Definition pv_vs (m : pmatch) : list nat := [fst (fst m); snd (fst m)].
Definition pv_kp (m : pmatch) : list nat :=
  let '((v0,v1),(b0,b1)) := m in
  match b0, b1 with [], [] => [] | [], _ => [v0] | _, _ => [v1] end.
Definition pv_rem (m : pmatch) : list nat :=
  let '((v0,v1),(b0,b1)) := m in
  match b0, b1 with [], [] => [v1; v0] | [], _ => [v1] | _, _ => [v0] end.
Definition pv_reme (m : pmatch) : list edge :=
  let '((v0,v1),(b0,b1)) := m in
  match b0, b1 with [], [] => [] | [], u :: _ => [mkedge v1 u] | u :: _, _ => [mkedge v0 u] end.

Lemma cprod_listprod : forall (f : nat -> nat -> C) l1 l2,
  cprod (fun e => f (fst e) (snd e)) (list_prod l1 l2) = cprod (fun u => cprod (fun v => f u v) l2) l1.
Proof.
  intros f l1 l2. induction l1 as [|a l1 IH]; simpl; [reflexivity|].
  rewrite cprod_app, cprod_map, IH. reflexivity.
Qed.
Lemma cprod_had_prod : forall g y l1 l2, (forall u, In u l1 -> vty g u = ZSP) -> (forall u, In u l2 -> vty g u = ZSP) ->
  cprod (fun e => nw g HADAMARD (fst e) (snd e) y) (list_prod l1 l2) =
  sq2p (- (Z.of_nat (length l1) * Z.of_nat (length l2))) * sgn (parity y l1 && parity y l2).
Proof.
  intros g y l1 l2 H1 H2.
  rewrite (cprod_listprod (fun s t => nw g HADAMARD s t y)).
  rewrite (cprod_ext _ _ (fun u => sq2p (- Z.of_nat (length l2)) * sgn (y u && parity y l2))).
  - rewrite cprod_mult, cprod_const, cpow_sq2p.
    rewrite (cprod_ext _ (fun a => sgn (y a && parity y l2)) (fun a => sgn (parity y l2 && y a)))
      by (intros; rewrite andb_comm; reflexivity).
    rewrite cprod_sgn_and. rewrite andb_comm. f_equal; f_equal; lia.
  - intros u Hu. rewrite (cprod_ext _ _ (fun v => sq2p (-1) * sgn (y u && y v))).
    + rewrite cprod_mult, cprod_const, cpow_sq2p, cprod_sgn_and. f_equal; f_equal; lia.
    + intros v Hv. apply nw_had_z; auto.
Qed.
Lemma cprod_pauli : forall a y l, is_pauli a = true -> cprod (fun v => ephase a (y v)) l = sgn (pbit a && parity y l).
Proof.
  intros. rewrite (cprod_ext _ _ (fun v => sgn (pbit a && y v))) by (intros; apply pauli_ephase; auto).
  apply cprod_sgn_and.
Qed.
Lemma cprod_h : forall g v b y l, vty g v = ZSP -> (forall u, In u l -> edge_type g v u = Some HADAMARD /\ vty g u = ZSP) ->
  cprod (fun u => ew g v u b (y u)) l = sq2p (- Z.of_nat (length l)) * sgn (b && parity y l).
Proof.
  intros g v b y l Hv H. rewrite (cprod_ext _ _ (fun u => sq2p (-1) * sgn (b && y u))).
  - rewrite cprod_mult, cprod_const, cpow_sq2p, cprod_sgn_and. f_equal; f_equal; lia.
  - intros u Hu. destruct (H u Hu) as [A B]. unfold ew, isX. rewrite A, Hv, B. reflexivity.
Qed.
Lemma parity_app : forall y l1 l2, parity y (l1 ++ l2) = xorb (parity y l1) (parity y l2).
Proof. intros. unfold parity. induction l1 as [|a l IH]; cbn [app fold_right]; [destruct (fold_right _ _ l2); reflexivity|rewrite IH, xorb_assoc; reflexivity]. Qed.
Lemma parity_upd : forall y v b l, ~ In v l -> parity (upd y v b) l = parity y l.
Proof.
  induction l as [|a l IH]; simpl; intros H; auto. rewrite IH by tauto. rewrite upd_other by tauto. reflexivity.
Qed.

(** the three bit identities *)
Definition Bt (A B x0 x1 : bool) : C := sgn (x0 && A) * sgn (x1 && B) * sgn (x0 && x1).
Lemma pivot_bits : forall A B,
  Bt A B false false + Bt A B false true + (Bt A B true false + Bt A B true true) = sq2p 2 * sgn (A && B).
Proof. intros [] []; rewrite sq2p_2; unfold Bt, sgn; simpl; ring. Qed.
Lemma pivot_bits_b : forall A B et b,
  sq2p (-1) * (Bt A B false false * wt (Some et) false b + Bt A B false true * wt (Some et) false b +
   (Bt A B true false * wt (Some et) true b + Bt A B true true * wt (Some et) true b))
  = sgn (A && B) * (sgn (false && B) * wt (Some (toggle_edge et)) false b + sgn (true && B) * wt (Some (toggle_edge et)) true b).
Proof.
  assert (S := sq2p_m1_sq).
  intros A B et b. destruct A, B, et, b; unfold Bt, sgn; simpl; unfold dlt; simpl; try ring.
  all: first [ transitivity (sq2p (-1) * sq2p (-1) * (C1 + C1)); [ring|rewrite S; ring]
            | transitivity (- (sq2p (-1) * sq2p (-1) * (C1 + C1))); [ring|rewrite S; ring] ].
Qed.

(** weights of the two vertices of a match *)
Lemma loc_pair : forall g v0 v1 core N0 N1 y, wfg g -> NoDup core -> NoDup N0 -> NoDup N1 ->
  (forall u, In u N0 <-> In u core /\ edge_type g v0 u <> None) ->
  (forall u, In u N1 <-> In u core /\ edge_type g v1 u <> None) ->
  loc g [v0;v1] core y = pw g v0 (y v0) * pw g v1 (y v1) * ew g v0 v1 (y v0) (y v1)
    * cprod (fun u => ew g v0 u (y v0) (y u)) N0 * cprod (fun u => ew g v1 u (y v1) (y u)) N1.
Proof.
  intros. unfold loc. cbn [cprod pprod].
  rewrite (cprod_nbrs g v0 core N0 (fun u => ew g v0 u (y v0) (y u))); auto using ew_none.
  rewrite (cprod_nbrs g v1 core N1 (fun u => ew g v1 u (y v1) (y u))); auto using ew_none.
  ring.
Qed.
Lemma loc_one : forall g v core N y, wfg g -> NoDup core -> NoDup N ->
  (forall u, In u N <-> In u core /\ edge_type g v u <> None) ->
  loc g [v] core y = pw g v (y v) * cprod (fun u => ew g v u (y v) (y u)) N.
Proof.
  intros. unfold loc. cbn [cprod pprod].
  rewrite (cprod_nbrs g v core N (fun u => ew g v u (y v) (y u))); auto using ew_none. ring.
Qed.

Lemma bool_split : forall a b c d e f, sgn (xorb a (xorb c d) && xorb b (xorb e f)) =
  sgn (a && b) * sgn (a && e) * sgn (a && f) * sgn (b && c) * sgn (b && d) * (sgn (c && e) * sgn (c && f) * sgn (d && e) * sgn (d && f)).
Proof. intros [] [] [] [] [] []; unfold sgn; simpl; ring. Qed.

(** the phases and edges of a pivot multiply to one sign *)
Lemma pv_eff_val : forall so g m y n0 n1 n2, pv_ok g m -> pivot_sets so g m = Ok (n0,n1,n2) ->
  (forall u, In u n0 \/ In u n1 \/ In u n2 -> vty g u = ZSP) ->
  let '((v0,v1),(b0,b1)) := m in
  let A := xorb (pbit (phase g v0)) (xorb (parity y n0) (parity y n2)) in
  let B := xorb (pbit (phase g v1)) (xorb (parity y n1) (parity y n2)) in
  pv_eff so g m y = sq2p (bpow b0 b1 (Z.of_nat (length n0)) (Z.of_nat (length n1)) (Z.of_nat (length n2)))
     * sgn (A && B) * bw g v0 v1 b0 y * bw g v1 v0 b1 y.
Proof.
  intros so g [[v0 v1] [b0 b1]] y n0 n1 n2 OK S Z.
  destruct OK as [P1 [P2 [P3 [P4 [P5 [P6 _]]]]]].
  unfold pv_eff. rewrite S. unfold pv_es. rewrite !cprod_app, !cprod_had_prod by auto.
  rewrite !cprod_pauli by auto.
  change (pbit 1%Qc) with true. rewrite andb_true_l, bool_split.
  set (k0 := Z.of_nat (length n0)). set (k1 := Z.of_nat (length n1)). set (k2 := Z.of_nat (length n2)).
  assert (PW : sq2p (k0 * k2 + k1 * k2 + k0 * k1) * (sq2p (- (k0 * k1)) * sq2p (- (k1 * k2)) * sq2p (- (k0 * k2))) = C1).
  { rewrite <- !sq2p_add. rewrite <- sq2p_0. f_equal. ring. }
  set (X0 := sq2p (- (k0 * k1))) in *. set (X1 := sq2p (- (k1 * k2))) in *. set (X2 := sq2p (- (k0 * k2))) in *.
  set (X3 := sq2p (k0 * k2 + k1 * k2 + k0 * k1)) in *.
  set (bp := sq2p (bpow b0 b1 k0 k1 k2)). set (w0 := bw g v0 v1 b0 y). set (w1 := bw g v1 v0 b1 y).
  replace (if pbit (phase g v0) && pbit (phase g v1) then cexp 1%Qc else C1) with (sgn (pbit (phase g v0) && pbit (phase g v1))).
  2:{ destruct (_ && _); simpl; [rewrite cexp_1|]; reflexivity. }
  transitivity ((X3 * (X0 * X1 * X2)) * bp * w0 * w1 *
    (sgn (parity y n2) * sgn (pbit (phase g v0) && pbit (phase g v1)) * (sgn (pbit (phase g v0) && parity y n1) * sgn (pbit (phase g v0) && parity y n2))
     * (sgn (pbit (phase g v1) && parity y n0) * sgn (pbit (phase g v1) && parity y n2))
     * (sgn (parity y n0 && parity y n1) * sgn (parity y n1 && parity y n2) * sgn (parity y n0 && parity y n2)))); [ring|].
  rewrite PW. destruct (parity y n0), (parity y n1), (parity y n2), (pbit (phase g v0)), (pbit (phase g v1)); unfold sgn; simpl; ring.
Qed.

Lemma pv_lists : forall so g v0 v1 b0 b1 n0 n1 n2 core, so_ok so -> wfg g -> noloop g -> pv_ok g ((v0,v1),(b0,b1)) ->
  pivot_sets so g ((v0,v1),(b0,b1)) = Ok (n0,n1,n2) -> ~ In v0 core -> ~ In v1 core ->
  (forall u, In u (neighbors g v0) -> u <> v1 -> In u core) -> (forall u, In u (neighbors g v1) -> u <> v0 -> In u core) ->
  NoDup (n0 ++ n2 ++ b0) /\ NoDup (n1 ++ n2 ++ b1) /\
  (forall u, In u (n0 ++ n2 ++ b0) <-> In u core /\ edge_type g v0 u <> None) /\
  (forall u, In u (n1 ++ n2 ++ b1) <-> In u core /\ edge_type g v1 u <> None) /\
  (forall u, In u (n0 ++ n2) -> edge_type g v0 u = Some HADAMARD /\ vty g u = ZSP) /\
  (forall u, In u (n1 ++ n2) -> edge_type g v1 u = Some HADAMARD /\ vty g u = ZSP) /\
  (forall u, In u n0 \/ In u n1 \/ In u n2 -> In u core /\ vty g u = ZSP) /\
  (forall s t, In (s,t) (pv_es n0 n1 n2) -> s <> t /\ In s core /\ In t core).
Proof.
  intros so g v0 v1 b0 b1 n0 n1 n2 core SO W NL OK S C0' C1' H0 H1.
  destruct (pivot_sets_spec so g g v0 v1 b0 b1 SO W eq_refl OK) as [m0 [m1 [m2 [_ [S2 [N0 [N1 [N2 [I2 [I0 I1]]]]]]]]]].
  rewrite S in S2. injection S2 as <- <- <-.
  destruct OK as [P1 [P2 [P3 [P4 [P5 [P6 [[P7 P7'] [[P8 P8'] P9]]]]]]]].
  assert (NB0 : NoDup b0 /\ forall u, In u b0 -> edge_type g v0 u <> None /\ u <> v1 /\ edge_type g v1 u = None).
  { destruct P7 as [->|[u [-> [X1 [X2 X3]]]]].
    - split; [constructor|]. intros v [].
    - split; [constructor; [simpl; tauto|constructor]|]. intros v [<-|[]]. auto. }
  assert (NB1 : NoDup b1 /\ forall u, In u b1 -> edge_type g v1 u <> None /\ u <> v0 /\ edge_type g v0 u = None).
  { destruct P8 as [->|[u [-> [X1 [X2 X3]]]]].
    - split; [constructor|]. intros v [].
    - split; [constructor; [simpl; tauto|constructor]|]. intros v [<-|[]]. auto. }
  destruct NB0 as [NB0 IB0]. destruct NB1 as [NB1 IB1].
  assert (IC0 : forall u, edge_type g v0 u <> None -> u <> v1 -> In u core) by (intros; apply H0; auto; apply neighbors_spec; auto).
  assert (IC1 : forall u, edge_type g v1 u <> None -> u <> v0 -> In u core) by (intros; apply H1; auto; apply neighbors_spec; auto).
  assert (L0 : forall u, edge_type g v0 u <> None -> u <> v0) by (intros u X ->; rewrite NL in X; auto).
  assert (L1 : forall u, edge_type g v1 u <> None -> u <> v1) by (intros u X ->; rewrite NL in X; auto).
  assert (K0 : forall u, In u (n0 ++ n2) <-> edge_type g v0 u <> None /\ u <> v1 /\ ~ In u b0).
  { intros u. rewrite in_app_iff, I0, I2. split; [tauto|]. intros X.
    destruct (edge_type g v1 u) eqn:E; [|left; split; auto; intros [Y _]; congruence].
    destruct (in_dec Nat.eq_dec u b1) as [Y|Y].
    - left. split; auto. tauto.
    - right. split; auto. split; [congruence|]. split; auto. apply L0; tauto. }
  assert (K1 : forall u, In u (n1 ++ n2) <-> edge_type g v1 u <> None /\ u <> v0 /\ ~ In u b1).
  { intros u. rewrite in_app_iff, I1, I2. split; [tauto|]. intros X.
    destruct (edge_type g v0 u) eqn:E; [|left; split; auto; intros [Y _]; congruence].
    destruct (in_dec Nat.eq_dec u b0) as [Y|Y].
    - left. split; auto. tauto.
    - right. split; auto. split; [congruence|]. split; auto. apply L1; tauto. }
  assert (D02 : forall u, In u n0 -> ~ In u n2) by (intros u; rewrite I0, I2; tauto).
  assert (D12 : forall u, In u n1 -> ~ In u n2) by (intros u; rewrite I1, I2; tauto).
  assert (D01 : forall u, In u n0 -> ~ In u n1) by (intros u; rewrite I0, I1; tauto).
  split; [|split; [|split; [|split; [|split; [|split; [|split]]]]]].
  - rewrite app_assoc. apply nodup_app; auto; [apply nodup_app; auto|]. intros u Hu. apply K0 in Hu. tauto.
  - rewrite app_assoc. apply nodup_app; auto; [apply nodup_app; auto|]. intros u Hu. apply K1 in Hu. tauto.
  - intros u. rewrite app_assoc, in_app_iff, K0. split.
    + intros [X|X].
      * split; [|tauto]. apply IC0; tauto.
      * split; [|apply IB0; auto]. apply IC0; apply IB0; auto.
    + intros [X Y]. destruct (in_dec Nat.eq_dec u b0); auto. left. split; auto. split; auto. intros ->; auto.
  - intros u. rewrite app_assoc, in_app_iff, K1. split.
    + intros [X|X].
      * split; [|tauto]. apply IC1; tauto.
      * split; [|apply IB1; auto]. apply IC1; apply IB1; auto.
    + intros [X Y]. destruct (in_dec Nat.eq_dec u b1); auto. left. split; auto. split; auto. intros ->; auto.
  - intros u Hu. apply K0 in Hu. apply P7'; try tauto. apply neighbors_spec; tauto.
  - intros u Hu. apply K1 in Hu. apply P8'; try tauto. apply neighbors_spec; tauto.
  - intros u Hu.
    assert (X : In u (n0 ++ n2) \/ In u (n1 ++ n2)) by (rewrite !in_app_iff; tauto).
    destruct X as [X|X]; [apply K0 in X|apply K1 in X].
    + split; [apply IC0; tauto|]. apply P7'; try tauto. apply neighbors_spec; tauto.
    + split; [apply IC1; tauto|]. apply P8'; try tauto. apply neighbors_spec; tauto.
  - assert (C : forall u, In u n0 \/ In u n1 \/ In u n2 -> In u core).
    { intros u Hu. rewrite I0, I1, I2 in Hu. destruct Hu as [X|[X|X]]; [apply IC0|apply IC1|apply IC0]; tauto. }
    intros s t Hst. unfold pv_es in Hst. rewrite !in_app_iff, !in_prod_iff in Hst.
    destruct Hst as [[X Y]|[[X Y]|[X Y]]]; (split; [intros ->|split; apply C; auto]).
    + exact (D01 t X Y).
    + exact (D12 t X Y).
    + exact (D02 t X Y).
Qed.

Lemma wt_tog : forall b et, tog b (toggle_edge et) = toggle_edge (tog b et).
Proof. intros [] []; reflexivity. Qed.

Lemma pv_local : forall so g m core x, so_ok so -> wfg g -> noloop g -> NoDup core -> pv_ok g m ->
  (forall v, In v (pv_vs m) -> ~ In v core) ->
  (forall v u, In v (pv_vs m) -> In u (neighbors g v) -> ~ In u (pv_vs m) -> In u core) ->
  sumv (pv_vs m) (loc g (pv_vs m) core) x = sumv (pv_kp m) (fun y => loc g (pv_kp m) core y * pv_eff so g m y) x.
Proof.
  intros so g m core x SO W NL ND OK HC HN. destruct m as [[v0 v1] [b0 b1]].
  unfold pv_vs in *. cbn [fst snd] in *.
  destruct (pivot_sets_spec so g g v0 v1 b0 b1 SO W eq_refl OK) as [n0 [n1 [n2 [_ [S _]]]]].
  assert (NC0 : ~ In v0 core) by (apply HC; simpl; auto).
  assert (NC1 : ~ In v1 core) by (apply HC; simpl; auto).
  destruct (pv_lists so g v0 v1 b0 b1 n0 n1 n2 core SO W NL OK S NC0 NC1) as [M1 [M2 [M3 [M4 [M5 [M6 [M7 M8]]]]]]].
  { intros u Hu Hne. apply (HN v0); simpl; auto. apply neighbors_spec in Hu. intros [<-|[<-|[]]]; try congruence; rewrite NL in Hu; congruence. }
  { intros u Hu Hne. apply (HN v1); simpl; auto. apply neighbors_spec in Hu. intros [<-|[<-|[]]]; try congruence; rewrite NL in Hu; congruence. }
  assert (EV := fun y => pv_eff_val so g ((v0,v1),(b0,b1)) y n0 n1 n2 OK S (fun u Hu => proj2 (M7 u Hu))).
  cbv zeta beta iota in EV.
  destruct OK as [P1 [P2 [P3 [P4 [P5 [P6 [[P7 P7'] [[P8 P8'] P9]]]]]]]].
  set (k0 := Z.of_nat (length n0)) in *. set (k1 := Z.of_nat (length n1)) in *. set (k2 := Z.of_nat (length n2)) in *.
  set (A := xorb (pbit (phase g v0)) (xorb (parity x n0) (parity x n2))).
  set (B := xorb (pbit (phase g v1)) (xorb (parity x n1) (parity x n2))).
  assert (PU : forall n a b, (n = n0 \/ n = n1 \/ n = n2) -> parity (upd (upd x v0 a) v1 b) n = parity x n /\
      parity (upd x v0 a) n = parity x n /\ parity (upd x v1 b) n = parity x n).
  { intros n a b Hn.
    assert (~ In v0 n /\ ~ In v1 n).
    { split; intros X; [apply NC0|apply NC1]; apply M7; destruct Hn as [->|[->| ->]]; auto. }
    rewrite !parity_upd by tauto. auto. }
  assert (B0 : isB g v0 = false) by (unfold isB; rewrite P2; reflexivity).
  assert (B1 : isB g v1 = false) by (unfold isB; rewrite P3; reflexivity).
  assert (NB0 : forall u, In u b0 -> u <> v0 /\ u <> v1).
  { intros u Hu. assert (In u core) by (apply (M3 u); rewrite !in_app_iff; auto). split; intros ->; contradiction. }
  assert (NB1 : forall u, In u b1 -> u <> v0 /\ u <> v1).
  { intros u Hu. assert (In u core) by (apply (M4 u); rewrite !in_app_iff; auto). split; intros ->; contradiction. }
  assert (LV : forall a b, loc g [v0;v1] core (upd (upd x v0 a) v1 b) =
     sq2p (-1) * sq2p (- (k0 + k2)) * sq2p (- (k1 + k2)) * Bt A B a b *
     cprod (fun u => ew g v0 u a (x u)) b0 * cprod (fun u => ew g v1 u b (x u)) b1).
  { intros a b. rewrite (loc_pair g v0 v1 core (n0 ++ n2 ++ b0) (n1 ++ n2 ++ b1)) by auto.
    rewrite (upd_other _ v1 b v0) by auto. rewrite !upd_same.
    rewrite (app_assoc n0), (app_assoc n1), (cprod_app _ _ (n0 ++ n2)), (cprod_app _ _ (n1 ++ n2)).
    rewrite (cprod_h g v0 a _ (n0 ++ n2)), (cprod_h g v1 b _ (n1 ++ n2)) by auto. unfold pw. rewrite B0, B1, !pauli_ephase by auto.
    replace (ew g v0 v1 a b) with (sq2p (-1) * sgn (a && b)).
    2:{ unfold ew, isX. rewrite P4, P2, P3. reflexivity. }
    rewrite !parity_app.
    destruct (PU n0 a b (or_introl eq_refl)) as [-> _].
    destruct (PU n1 a b (or_intror (or_introl eq_refl))) as [-> _].
    destruct (PU n2 a b (or_intror (or_intror eq_refl))) as [-> _].
    rewrite !app_length, !Nat2Z.inj_add. fold k0 k1 k2.
    rewrite (cprod_ext _ (fun u => ew g v0 u a (upd (upd x v0 a) v1 b u)) (fun u => ew g v0 u a (x u))).
    2:{ intros u Hu. destruct (NB0 u Hu). rewrite !upd_other by auto. reflexivity. }
    rewrite (cprod_ext _ (fun u => ew g v1 u b (upd (upd x v0 a) v1 b u)) (fun u => ew g v1 u b (x u))).
    2:{ intros u Hu. destruct (NB1 u Hu). rewrite !upd_other by auto. reflexivity. }
    unfold Bt, A, B.
    replace (sgn (a && xorb (pbit (phase g v0)) (xorb (parity x n0) (parity x n2))))
      with (sgn (pbit (phase g v0) && a) * sgn (a && xorb (parity x n0) (parity x n2))).
    2:{ destruct a, (pbit (phase g v0)), (parity x n0), (parity x n2); unfold sgn; simpl; ring. }
    replace (sgn (b && xorb (pbit (phase g v1)) (xorb (parity x n1) (parity x n2))))
      with (sgn (pbit (phase g v1) && b) * sgn (b && xorb (parity x n1) (parity x n2))).
    2:{ destruct b, (pbit (phase g v1)), (parity x n1), (parity x n2); unfold sgn; simpl; ring. }
    ring. }
  assert (EX : forall y, (forall n, n = n0 \/ n = n1 \/ n = n2 -> parity y n = parity x n) ->
     pv_eff so g ((v0,v1),(b0,b1)) y = sq2p (bpow b0 b1 k0 k1 k2) * sgn (A && B) * bw g v0 v1 b0 y * bw g v1 v0 b1 y).
  { intros y Hy. rewrite EV. unfold A, B. rewrite !Hy by auto. reflexivity. }
  cbn [sumv]. rewrite !LV.
  destruct P9 as [->| ->].
  - destruct P8 as [->|[u [-> [X1 [X2 X3]]]]].
    + (* no boundary *)
      cbn [pv_kp sumv]. rewrite EX by auto. cbn [bpow bw cprod]. unfold loc. cbn [cprod pprod].
      transitivity (sq2p (-1) * sq2p (- (k0 + k2)) * sq2p (- (k1 + k2)) *
         (Bt A B false false + Bt A B false true + (Bt A B true false + Bt A B true true))); [ring|].
      rewrite pivot_bits.
      replace (- (k0 + k1 + 2 * k2 - 1))%Z with (-1 + - (k0 + k2) + - (k1 + k2) + 2)%Z by ring.
      rewrite !sq2p_add. ring.
    + (* boundary on v1; v0 is kept *)
      cbn [pv_kp sumv]. cbn [app] in *. rewrite app_nil_r in M1.
      destruct (edge_type g v1 u) as [et|] eqn:Eu; [|congruence].
      assert (LO : forall a, loc g [v0] core (upd x v0 a) = sq2p (- (k0 + k2)) * sgn (a && A)).
      { intros a. rewrite (loc_one g v0 core (n0 ++ n2)); auto.
        2:{ intros w. rewrite <- M3, app_nil_r. tauto. }
        rewrite upd_same, cprod_h by auto. unfold pw. rewrite B0, pauli_ephase by auto. rewrite parity_app.
        destruct (PU n0 a a (or_introl eq_refl)) as [_ [-> _]].
        destruct (PU n2 a a (or_intror (or_intror eq_refl))) as [_ [-> _]].
        rewrite app_length, Nat2Z.inj_add. fold k0 k2. unfold A.
        destruct a, (pbit (phase g v0)), (parity x n0), (parity x n2); unfold sgn; simpl; ring. }
      rewrite !LO.
      rewrite !EX by (intros n Hn; destruct (PU n true true Hn) as [_ [Q _]]; destruct (PU n false true Hn) as [_ [Q' _]]; auto).
      destruct (NB1 u (or_introl eq_refl)) as [U0 U1].
      cbn [bpow bw cprod]. rewrite Eu. unfold ew, nw. rewrite Eu. cbn [option_map].
      rewrite !upd_same, !upd_other by auto. rewrite !wt_tog.
      replace (xorb (isX g v0) (isX g u)) with (xorb (isX g v1) (isX g u)) by (unfold isX; rewrite P2, P3; reflexivity).
      set (et' := tog _ et).
      assert (PB := pivot_bits_b B A et' (x u)).
      transitivity (sq2p (- (k0 + k2)) * sq2p (- (k1 + k2)) * (sq2p (-1) *
          (Bt B A false false * wt (Some et') false (x u) + Bt B A false true * wt (Some et') false (x u) +
           (Bt B A true false * wt (Some et') true (x u) + Bt B A true true * wt (Some et') true (x u))))).
      { unfold Bt. destruct A, B; unfold sgn; simpl; ring. }
      rewrite PB. rewrite (andb_comm B A). ring.
  - destruct P7 as [->|[u [-> [X1 [X2 X3]]]]].
    + (* same as the first case of the other branch *)
      cbn [pv_kp sumv]. rewrite EX by auto. cbn [bpow bw cprod]. unfold loc. cbn [cprod pprod].
      transitivity (sq2p (-1) * sq2p (- (k0 + k2)) * sq2p (- (k1 + k2)) *
          (Bt A B false false + Bt A B false true + (Bt A B true false + Bt A B true true))); [ring|].
      rewrite pivot_bits.
      replace (- (k0 + k1 + 2 * k2 - 1))%Z with (-1 + - (k0 + k2) + - (k1 + k2) + 2)%Z by ring.
      rewrite !sq2p_add. ring.
    + (* boundary on v0; v1 is kept *)
      cbn [pv_kp sumv]. cbn [app] in *.
      destruct (edge_type g v0 u) as [et|] eqn:Eu; [|congruence].
      assert (LO : forall a, loc g [v1] core (upd x v1 a) = sq2p (- (k1 + k2)) * sgn (a && B)).
      { intros a. rewrite app_nil_r in M2. rewrite (loc_one g v1 core (n1 ++ n2)); auto.
        2:{ intros w. rewrite <- M4, app_nil_r. tauto. }
        rewrite upd_same, cprod_h by auto. unfold pw. rewrite B1, pauli_ephase by auto. rewrite parity_app.
        destruct (PU n1 a a (or_intror (or_introl eq_refl))) as [_ [_ ->]].
        destruct (PU n2 a a (or_intror (or_intror eq_refl))) as [_ [_ ->]].
        rewrite app_length, Nat2Z.inj_add. fold k1 k2. unfold B.
        destruct a, (pbit (phase g v1)), (parity x n1), (parity x n2); unfold sgn; simpl; ring. }
      rewrite !LO.
      rewrite !EX by (intros n Hn; destruct (PU n true true Hn) as [_ [_ Q]]; destruct (PU n true false Hn) as [_ [_ Q']]; auto).
      destruct (NB0 u (or_introl eq_refl)) as [U0 U1].
      cbn [bpow bw cprod]. rewrite Eu. unfold ew, nw. rewrite Eu. cbn [option_map].
      rewrite !upd_same, !upd_other by auto. rewrite !wt_tog.
      replace (xorb (isX g v1) (isX g u)) with (xorb (isX g v0) (isX g u)) by (unfold isX; rewrite P2, P3; reflexivity).
      set (et' := tog _ et).
      assert (PB := pivot_bits_b A B et' (x u)).
      transitivity (sq2p (- (k0 + k2)) * sq2p (- (k1 + k2)) * (sq2p (-1) *
          (Bt A B false false * wt (Some et') false (x u) + Bt A B false true * wt (Some et') false (x u) +
           (Bt A B true false * wt (Some et') true (x u) + Bt A B true true * wt (Some et') true (x u))))).
      { ring. }
      rewrite PB. ring.
Qed.

Lemma bw_etab : forall g g1 v w u et tab, gadj g1 = gadj g -> edge_type g v u = Some et ->
  etab_set (w, u) (let '(ns, nh) := match etab_get (w, u) tab with Some c => c | None => (0, 0)%nat end in
    match edge_type g1 v u with
             | Some SIMPLE => (ns, nh + 1)%nat
             | Some HADAMARD => (ns + 1, nh)%nat
             | None => (ns, nh) end) tab = etab_add (w, u) (toggle_edge et) tab.
Proof.
  intros g g1 v w u et tab A E. replace (edge_type g1 v u) with (Some et) by (rewrite <- E; unfold edge_type; rewrite A; reflexivity).
  unfold etab_add. destruct (match etab_get (w,u) tab with Some c => c | None => _ end) as [ns nh].
  destruct et; reflexivity.
Qed.

(** one side of the pivot *)
Lemma pivot_side_spec : forall g core L g1 tab rem reme v w b nw' n2, wfg g -> NoDup core -> NoDup L ->
  (forall u, In u core -> In u L) ->
  wfg g1 -> same_frame g g1 -> gadj g1 = gadj g -> tabL L tab ->
  is_pauli (phase g1 v) = true ->
  (forall u, In u nw' \/ In u n2 -> In u core /\ In u (vertices g) /\ vty g u = ZSP) ->
  side_ok g v w b -> (b <> [] -> In w L /\ forall u, In u b -> In u core /\ u <> w) ->
  exists g' tab', pivot_side v w b nw' n2 (g1, tab, rem, reme) =
     (g', tab', rem ++ (match b with [] => [w] | _ => [] end), reme ++ (match b with [] => [] | u :: _ => [mkedge v u] end)) /\
   wfg g' /\ same_frame g g' /\ gadj g' = gadj g /\ tabL L tab' /\
   (forall s t, ~ (In s core) \/ cnt (s,t) tab' = cnt (s,t) tab \/ s = w) /\
   (forall P, pcl P -> allph P g1 -> allph P g') /\
   (forall u, ~ In u nw' -> ~ In u n2 -> phase g' u = phase g1 u) /\
   forall y, integL core g' y * tabw g tab' y = integL core g1 y * tabw g tab y *
     (cprod (fun u => ephase (phase g1 v) (y u)) nw' * cprod (fun u => ephase (phase g1 v) (y u)) n2) * bw g v w b y.
Proof.
  intros g core L g1 tab rem reme v w b nw' n2 W NC ND HL W1 F1 A1 T1 PA HN [SB _] HB.
  unfold pivot_side.
  set (g2 := if qeqb (phase g1 v) 0%Qc then g1 else add_phases n2 (phase g1 v) (add_phases nw' (phase g1 v) g1)).
  assert (V1 : vertices g1 = vertices g) by (destruct F1 as [X _]; exact X).
  assert (G2 : wfg g2 /\ same_frame g1 g2 /\ gadj g2 = gadj g1 /\
    (forall u, ~ In u nw' -> ~ In u n2 -> phase g2 u = phase g1 u) /\
    (forall P, pcl P -> allph P g1 -> allph P g2) /\
    forall y, integL core g2 y = integL core g1 y *
     (cprod (fun u => ephase (phase g1 v) (y u)) nw' * cprod (fun u => ephase (phase g1 v) (y u)) n2)).
  { unfold g2. destruct (qeqb (phase g1 v) 0%Qc) eqn:Q.
    - apply qeqb_eq in Q. rewrite Q. split; [auto|]. split; [apply same_frame_refl|]. split; [auto|]. split; [auto|]. split; [auto|].
      intros y. rewrite (cprod_1 _ _ nw'), (cprod_1 _ _ n2) by (intros; apply ephase_0). ring.
    - assert (Hq : quarter (phase g1 v)).
      { unfold is_pauli in PA. rewrite Q in PA. simpl in PA. apply qeqb_eq in PA. rewrite PA. apply quarter_1. }
      destruct (add_phases_spec core nw' (phase g1 v) g1 W1 NC) as [B1 [B2 [B3 [B4 [B5 B6]]]]].
      { intros u Hu. destruct (HN u (or_introl Hu)) as [X [Y Z]]. rewrite V1. split; auto. split; auto.
        rewrite (same_frame_isB g g1) by auto. unfold isB. rewrite Z. reflexivity. }
      set (g3 := add_phases nw' (phase g1 v) g1) in *.
      assert (V3 : vertices g3 = vertices g) by (destruct B2 as [X _]; congruence).
      destruct (add_phases_spec core n2 (phase g1 v) g3 B1 NC) as [D1 [D2 [D3 [D4 [D5 D6]]]]].
      { intros u Hu. destruct (HN u (or_intror Hu)) as [X [Y Z]]. rewrite V3. split; auto. split; auto.
        rewrite (same_frame_isB g1 g3), (same_frame_isB g g1) by auto. unfold isB. rewrite Z. reflexivity. }
      split; [auto|]. split; [eapply same_frame_trans; eauto|]. split; [congruence|].
      split; [intros u X Y; rewrite D5, B5 by auto; reflexivity|]. split.
      + intros P PC AP. apply allph_add_phases; [apply PC| |auto|].
        * intros u Hu. rewrite V3. apply HN; auto.
        * apply allph_add_phases; [apply PC| |auto|auto]. intros u Hu. rewrite V1. apply HN; auto.
      + intros y. rewrite D6, B6. ring. }
  destruct G2 as [W2 [F2 [A2 [Ph2 [AP2 I2]]]]].
  assert (F02 : same_frame g g2) by (eapply same_frame_trans; eauto).
  assert (A02 : gadj g2 = gadj g) by congruence.
  destruct SB as [->|[u [-> [S1 [S2 S3]]]]].
  - exists g2, tab. rewrite app_nil_r. split; [reflexivity|]. do 4 (split; [auto; fail|]). split; [auto|].
    split; [auto|]. split; [auto|]. intros y. rewrite I2. cbn [bw]. ring.
  - destruct (edge_type g v u) as [et|] eqn:Eu; [|congruence].
    destruct (HB ltac:(discriminate)) as [Lw Bu]. destruct (Bu u (or_introl eq_refl)) as [Bu1 Bu2].
    exists g2, (etab_add (w,u) (toggle_edge et) tab). split.
    + rewrite <- (bw_etab g g2 v w u et tab A02 Eu). rewrite app_nil_r.
      destruct (match etab_get (w,u) tab with Some c => c | None => _ end). reflexivity.
    + do 3 (split; [auto; fail|]). split; [apply tabL_add; auto|]. split.
      { intros s t. rewrite cnt_add. destruct (ekeq (s,t) (w,u)) eqn:K; [|auto].
        apply ekeq_eq in K. injection K as -> ->. auto. }
      split; [auto|]. split; [auto|].
      intros y. rewrite I2, tabw_add by apply T1. cbn [bw]. rewrite Eu. ring.
Qed.

Lemma bpow_match : forall (b0 b1 : list nat) (k0 k1 k2 : Z) g,
  match b0, b1 with
           | [], [] => on_scalar (s_add_power (- (k0 + k1 + 2 * k2 - 1))%Z) g
           | [], _ => on_scalar (s_add_power (- (k1 + k2))%Z) g
           | _, _ => on_scalar (s_add_power (- (k0 + k2))%Z) g
           end = on_scalar (s_add_power (bpow b0 b1 k0 k1 k2)) g.
Proof. intros [|] [|] *; reflexivity. Qed.

Lemma pivot_one_spec : forall so g core L m g1 tab rem reme, so_ok so -> wfg g -> noloop g -> NoDup core -> NoDup L ->
  (forall u, In u core -> In u L) -> pv_ok g m ->
  (forall v, In v (pv_vs m) -> ~ In v core) ->
  (forall v u, In v (pv_vs m) -> In u (neighbors g v) -> ~ In u (pv_vs m) -> In u core) ->
  (forall v, In v (pv_kp m) -> In v L) ->
  wfg g1 -> same_frame g g1 -> gadj g1 = gadj g -> tabL L tab ->
  (forall s t, In s core -> fst (cnt (s,t) tab) = O) ->
  (forall v, In v (pv_vs m) -> phase g1 v = phase g v) ->
  exists g' tab', pivot_one so (g1, tab, rem, reme) m = Ok (g', tab', rem ++ pv_rem m, reme ++ pv_reme m) /\
    wfg g' /\ same_frame g g' /\ gadj g' = gadj g /\ tabL L tab' /\
    (forall s t, In s core -> fst (cnt (s,t) tab') = O) /\
    (forall P, pcl P -> allph P g1 -> allph P g') /\
    (forall u, ~ In u core -> phase g' u = phase g1 u) /\
    forall y, integL core g' y * tabw g tab' y = integL core g1 y * tabw g tab y * pv_eff so g m y.
Proof.
  intros so g core L [[v0 v1] [b0 b1]] g1 tab rem reme SO W NL NC NDL HL OK HC HN HK W1 F1 A1 T1 TI HP.
  destruct (pivot_sets_spec so g g1 v0 v1 b0 b1 SO W A1 OK) as [n0 [n1 [n2 [S1 [S _]]]]].
  unfold pv_vs in *. cbn [fst snd] in *.
  assert (NC0 : ~ In v0 core) by (apply HC; simpl; auto).
  assert (NC1 : ~ In v1 core) by (apply HC; simpl; auto).
  destruct (pv_lists so g v0 v1 b0 b1 n0 n1 n2 core SO W NL OK S NC0 NC1) as [M1 [M2 [M3 [M4 [M5 [M6 [M7 M8]]]]]]].
  { intros u Hu Hne. apply (HN v0); simpl; auto. apply neighbors_spec in Hu. intros [<-|[<-|[]]]; try congruence; rewrite NL in Hu; congruence. }
  { intros u Hu Hne. apply (HN v1); simpl; auto. apply neighbors_spec in Hu. intros [<-|[<-|[]]]; try congruence; rewrite NL in Hu; congruence. }
  assert (OK' := OK). destruct OK as [P1 [P2 [P3 [P4 [P5 [P6 [P7 [P8 P9]]]]]]]].
  assert (HV : forall u, In u n0 \/ In u n1 \/ In u n2 -> In u core /\ In u (vertices g) /\ vty g u = ZSP).
  { intros u Hu. destruct (M7 u Hu) as [X Y]. split; auto. split; auto.
    assert (In u (n0 ++ n2) \/ In u (n1 ++ n2)) as [Z|Z] by (rewrite !in_app_iff; tauto).
    - apply (neighbors_in g v0); auto. apply neighbors_spec. destruct (M5 u Z) as [-> _]. discriminate.
    - apply (neighbors_in g v1); auto. apply neighbors_spec. destruct (M6 u Z) as [-> _]. discriminate. }
  unfold pivot_one. rewrite S1. cbn [bind].
  set (k0 := Z.of_nat (length n0)). set (k1 := Z.of_nat (length n1)). set (k2 := Z.of_nat (length n2)).
  set (g2 := on_scalar (s_add_power (k0 * k2 + k1 * k2 + k0 * k1)%Z) g1).
  assert (W2 : wfg g2) by (apply on_scalar_wfg; auto).
  assert (F2 : same_frame g g2) by (eapply same_frame_trans; [exact F1|apply on_scalar_frame]).
  assert (V2 : vertices g2 = vertices g) by (destruct F2 as [X _]; exact X).
  destruct (add_phases_spec core n2 1%Qc g2 W2 NC) as [B1 [B2 [B3 [B4 [B5 B6]]]]].
  { intros u Hu. destruct (HV u) as [X [Y Z]]; auto. split; auto. rewrite V2. split; auto.
    rewrite (same_frame_isB g g2) by auto. unfold isB. rewrite Z. reflexivity. }
  set (g3 := add_phases n2 1%Qc g2) in *.
  assert (PC : forall v, ~ In v core -> phase g3 v = phase g1 v).
  { intros v Hv. rewrite B5; [reflexivity|]. intros X. apply Hv. apply M7; auto. }
  assert (E0 : phase g3 v0 = phase g v0) by (rewrite PC by auto; apply HP; simpl; auto).
  assert (E1 : phase g3 v1 = phase g v1) by (rewrite PC by auto; apply HP; simpl; auto).
  rewrite E0, E1. rewrite bpow_match.
  set (g4 := if negb (qeqb (phase g v0) 0%Qc) && negb (qeqb (phase g v1) 0%Qc) then on_scalar (s_add_phase 1%Qc) g3 else g3).
  assert (G4 : wfg g4 /\ same_frame g3 g4 /\ gadj g4 = gadj g3 /\ gphase g4 = gphase g3 /\
     forall y, integL core g4 y = integL core g3 y * (if pbit (phase g v0) && pbit (phase g v1) then cexp 1%Qc else C1)).
  { unfold g4, pbit. destruct (negb _ && negb _).
    - split; [apply on_scalar_wfg; auto|]. split; [apply on_scalar_frame|]. split; [auto|]. split; [auto|].
      intros; apply integL_sphase.
    - split; [auto|]. split; [apply same_frame_refl|]. split; [auto|]. split; [auto|]. intros; ring. }
  destruct G4 as [W4 [F4 [A4 [Ph4 I4]]]].
  set (g5 := on_scalar (s_add_power (bpow b0 b1 k0 k1 k2)) g4).
  assert (W5 : wfg g5) by (apply on_scalar_wfg; auto).
  assert (F5 : same_frame g g5).
  { eapply same_frame_trans; [exact F2|]. eapply same_frame_trans; [exact B2|]. eapply same_frame_trans; [exact F4|apply on_scalar_frame]. }
  assert (A5 : gadj g5 = gadj g) by (change (gadj g4 = gadj g); rewrite A4, B3; exact A1).
  assert (PH5 : forall v, phase g5 v = phase g3 v) by (intros; unfold phase; change (gphase g5) with (gphase g4); rewrite Ph4; reflexivity).
  assert (AP5 : forall P, pcl P -> allph P g1 -> allph P g5).
  { intros P PCP AP. apply (allph_frame P g4 g5); [apply on_scalar_frame|reflexivity|].
    apply (allph_frame P g3 g4); auto. unfold g3. apply allph_add_phases; [apply PCP| |left; apply quarter_1|].
    - intros u Hu. rewrite V2. apply HV; auto.
    - apply (allph_frame P g1 g2); [apply on_scalar_frame|reflexivity|auto]. }
  assert (BC0 : forall u, In u b0 -> In u core) by (intros u Hu; apply (M3 u); rewrite !in_app_iff; auto).
  assert (BC1 : forall u, In u b1 -> In u core) by (intros u Hu; apply (M4 u); rewrite !in_app_iff; auto).
  destruct (pivot_side_spec g core L g5 tab rem reme v0 v1 b0 n1 n2 W NC NDL HL W5 F5 A5 T1) as
    [g6 [tab6 [X1 [X2 [X3 [X4 [X5 [X6 [X7 [X8 X9]]]]]]]]]]; auto.
  { rewrite PH5, E0; auto. }
  { intros Hb. split.
    - apply HK. destruct b0; [congruence|]. simpl. auto.
    - intros u Hu. split; auto. intros ->. apply NC1; auto. }
  rewrite X1. cbv iota.
  assert (Q1 : phase g6 v1 = phase g v1).
  { rewrite X8, PH5; auto; intros X; apply NC1; apply M7; auto. }
  destruct (pivot_side_spec g core L g6 tab6 (rem ++ match b0 with [] => [v1] | _ => [] end)
      (reme ++ match b0 with [] => [] | u :: _ => [mkedge v0 u] end) v1 v0 b1 n0 n2 W NC NDL HL X2 X3 X4 X5) as
    [g7 [tab7 [Y1 [Y2 [Y3 [Y4 [Y5 [Y6 [Y7 [Y8 Y9]]]]]]]]]]; auto.
  { rewrite Q1; auto. }
  { intros u Hu. apply HV; tauto. }
  { intros Hb. split.
    - apply HK. destruct P9 as [->| ->]; [|congruence]. destruct b1; [congruence|]. simpl. auto.
    - intros u Hu. split; auto. intros ->. apply NC0; auto. }
  rewrite Y1. cbv iota. cbv beta.
  change (list_prod n0 n1 ++ list_prod n1 n2 ++ list_prod n0 n2) with (pv_es n0 n1 n2).
  assert (TI7 : forall s t, In s core -> fst (cnt (s,t) tab7) = O).
  { intros s t Hs. destruct (Y6 s t) as [Z|[Z|Z]]; [contradiction| |subst; contradiction].
    destruct (X6 s t) as [Z'|[Z'|Z']]; [contradiction| |subst; contradiction]. rewrite Z, Z'. auto. }
  destruct (had_fold g L (pv_es n0 n1 n2) tab7 Y5) as [D1 [D2 [D3 D4]]].
  { intros s t Hst. destruct (M8 s t Hst) as [Z1 [Z2 Z3]]. auto. }
  eexists. eexists. split.
  { rewrite <- !app_assoc. unfold pv_rem, pv_reme.
    replace ((match b0 with [] => [v1] | _ => [] end) ++ (match b1 with [] => [v0] | _ => [] end)) with
       (match b0, b1 with [], [] => [v1; v0] | [], _ => [v1] | _, _ => [v0] end).
    2:{ destruct b0, b1; try reflexivity. destruct P9; discriminate. }
    replace ((match b0 with [] => [] | u :: _ => [mkedge v0 u] end) ++ (match b1 with [] => [] | u :: _ => [mkedge v1 u] end)) with
       (match b0, b1 with [], [] => [] | [], u :: _ => [mkedge v1 u] | u :: _, _ => [mkedge v0 u] end).
    2:{ destruct b0, b1; try reflexivity. destruct P9; discriminate. }
    reflexivity. }
  split; [exact Y2|]. split; [exact Y3|]. split; [exact Y4|]. split; [exact D1|].
  split; [intros s t Hs; rewrite D2; auto|].
  split; [intros P PCP AP; apply Y7; auto|].
  split.
  { intros u Hu. rewrite Y8, X8, PH5, PC; auto; intros X; apply Hu; apply M7; auto. }
  intros y. rewrite D4.
  transitivity ((integL core g7 y * tabw g tab7 y) * cprod (fun e => nw g HADAMARD (fst e) (snd e) y) (pv_es n0 n1 n2)); [ring|].
  rewrite Y9, X9. rewrite Q1, PH5, E0. unfold g5. rewrite integL_power, I4, B6. unfold g2. rewrite integL_power.
  unfold pv_eff. rewrite S. fold k0 k1 k2. ring.
Qed.

Definition pv_far (g : graph) (m m' : pmatch) : Prop := far g (fst m) (fst m').

Lemma pivot_fold : forall so g core L ms, so_ok so -> wfg g -> noloop g -> NoDup core -> NoDup L ->
  (forall u, In u core -> In u L) ->
  (forall m, In m ms -> pv_ok g m /\ (forall v, In v (pv_vs m) -> ~ In v core) /\
    (forall v u, In v (pv_vs m) -> In u (neighbors g v) -> ~ In u (pv_vs m) -> In u core) /\
    (forall v, In v (pv_kp m) -> In v L)) ->
  forall g1 tab rem reme, wfg g1 -> same_frame g g1 -> gadj g1 = gadj g -> tabL L tab ->
  (forall s t, In s core -> fst (cnt (s,t) tab) = O) ->
  (forall m v, In m ms -> In v (pv_vs m) -> phase g1 v = phase g v) ->
  exists g' tab', foldM (pivot_one so) ms (g1, tab, rem, reme) = Ok (g', tab', rem ++ flat_map pv_rem ms, reme ++ flat_map pv_reme ms) /\
    wfg g' /\ same_frame g g' /\ gadj g' = gadj g /\ tabL L tab' /\
    (forall P, pcl P -> allph P g1 -> allph P g') /\
    (forall u, ~ In u core -> phase g' u = phase g1 u) /\
    forall y, integL core g' y * tabw g tab' y = integL core g1 y * tabw g tab y * cprod (fun m => pv_eff so g m y) ms.
Proof.
  intros so g core L ms SO W NL NC NDL HL. induction ms as [|m ms IH]; intros HM g1 tab rem reme W1 F1 A1 T1 TI HP.
  - exists g1, tab. cbn [foldM flat_map cprod]. rewrite !app_nil_r. split; [reflexivity|].
    do 3 (split; [auto; fail|]). split; [auto|]. split; [auto|]. split; [auto|]. intros; ring.
  - destruct (HM m (or_introl eq_refl)) as [M1 [M2 [M3 M4]]].
    destruct (pivot_one_spec so g core L m g1 tab rem reme SO W NL NC NDL HL M1 M2 M3 M4 W1 F1 A1 T1 TI) as
      [g2 [tab2 [X1 [X2 [X3 [X4 [X5 [X6 [X7 [X8 X9]]]]]]]]]].
    { intros v Hv. apply (HP m); simpl; auto. }
    destruct (IH) with (g1 := g2) (tab := tab2) (rem := rem ++ pv_rem m) (reme := reme ++ pv_reme m)
      as [g' [tab' [Y1 [Y2 [Y3 [Y4 [Y5 [Y6 [Y7 Y8]]]]]]]]]; auto.
    { intros m' Hm'. apply HM; simpl; auto. }
    { intros m' v Hm' Hv. destruct (HM m' (or_intror Hm')) as [_ [Z _]]. rewrite X8 by (apply Z; auto).
      apply (HP m'); simpl; auto. }
    exists g', tab'. cbn [foldM flat_map cprod]. rewrite X1. cbn [bind]. rewrite Y1, <- !app_assoc.
    split; [reflexivity|]. do 4 (split; [auto; fail|]). split; [intros P PCP AP; apply Y6; auto|].
    split; [intros u Hu; rewrite Y7, X8; auto|].
    intros y. rewrite Y8, X9. ring.
Qed.

Lemma pv_eff_indep : forall so g m core y w c, so_ok so -> wfg g -> noloop g -> pv_ok g m ->
  (forall v, In v (pv_vs m) -> ~ In v core) ->
  (forall v u, In v (pv_vs m) -> In u (neighbors g v) -> ~ In u (pv_vs m) -> In u core) ->
  ~ In w core -> ~ In w (pv_kp m) -> pv_eff so g m (upd y w c) = pv_eff so g m y.
Proof.
  intros so g [[v0 v1] [b0 b1]] core y w c SO W NL OK HC HN Hw Hk.
  destruct (pivot_sets_spec so g g v0 v1 b0 b1 SO W eq_refl OK) as [n0 [n1 [n2 [_ [S _]]]]].
  unfold pv_vs in *. cbn [fst snd] in *.
  assert (NC0 : ~ In v0 core) by (apply HC; simpl; auto).
  assert (NC1 : ~ In v1 core) by (apply HC; simpl; auto).
  destruct (pv_lists so g v0 v1 b0 b1 n0 n1 n2 core SO W NL OK S NC0 NC1) as [M1 [M2 [M3 [M4 [M5 [M6 [M7 M8]]]]]]].
  { intros u Hu Hne. apply (HN v0); simpl; auto. apply neighbors_spec in Hu. intros [<-|[<-|[]]]; try congruence; rewrite NL in Hu; congruence. }
  { intros u Hu Hne. apply (HN v1); simpl; auto. apply neighbors_spec in Hu. intros [<-|[<-|[]]]; try congruence; rewrite NL in Hu; congruence. }
  assert (U : forall u, In u core -> upd y w c u = y u) by (intros u Hu; apply upd_other; intros ->; contradiction).
  assert (UN : forall (f : bool -> C) n, (forall u, In u n -> In u core) -> cprod (fun v => f (upd y w c v)) n = cprod (fun v => f (y v)) n).
  { intros f n Hn. apply cprod_ext. intros u Hu. rewrite U by auto. reflexivity. }
  destruct OK as [P1 [P2 [P3 [P4 [P5 [P6 [[P7 _] [[P8 _] P9]]]]]]]].
  unfold pv_eff. rewrite S.
  rewrite !(UN (fun b => ephase _ b)) by (intros u Hu; apply M7; auto).
  assert (ES : cprod (fun e => nw g HADAMARD (fst e) (snd e) (upd y w c)) (pv_es n0 n1 n2) =
     cprod (fun e => nw g HADAMARD (fst e) (snd e) y) (pv_es n0 n1 n2)).
  { apply cprod_ext. intros [s t] Hst. destruct (M8 s t Hst) as [_ [X Y]]. unfold nw. cbn [fst snd]. rewrite !U by auto. reflexivity. }
  rewrite ES.
  assert (BW0 : bw g v0 v1 b0 (upd y w c) = bw g v0 v1 b0 y).
  { destruct b0 as [|u b0]; [reflexivity|]. cbn [bw]. destruct (edge_type g v0 u); [|reflexivity].
    unfold nw. rewrite (U u). 2:{ apply (M3 u). rewrite !in_app_iff. simpl; auto. }
    rewrite (upd_other y w c v1); auto. simpl in Hk. intros ->. apply Hk. simpl. auto. }
  assert (BW1 : bw g v1 v0 b1 (upd y w c) = bw g v1 v0 b1 y).
  { destruct b1 as [|u b1]; [reflexivity|]. cbn [bw]. destruct (edge_type g v1 u); [|reflexivity].
    unfold nw. rewrite (U u). 2:{ apply (M4 u). rewrite !in_app_iff. simpl; auto. }
    rewrite (upd_other y w c v0); auto. destruct P9 as [->|X]; [|discriminate]. simpl in Hk. intros ->. apply Hk. auto. }
  rewrite BW0, BW1. reflexivity.
Qed.

Lemma flat_map_app_perm : forall A (f h : A -> list nat) ms,
  Permutation (flat_map (fun m => f m ++ h m) ms) (flat_map f ms ++ flat_map h ms).
Proof.
  intros A f h ms. induction ms as [|m ms IH]; simpl; auto.
  rewrite <- !app_assoc. apply Permutation_app_head.
  eapply perm_trans; [apply Permutation_app_head; exact IH|].
  rewrite !app_assoc. apply Permutation_app_tail. apply Permutation_app_comm.
Qed.
Lemma flat_map_perm_ext : forall A (f h : A -> list nat) ms, (forall m, In m ms -> Permutation (f m) (h m)) ->
  Permutation (flat_map f ms) (flat_map h ms).
Proof.
  intros A f h ms. induction ms as [|m ms IH]; intros H; simpl; auto.
  apply Permutation_app; [apply H; simpl; auto|apply IH; intros; apply H; simpl; auto].
Qed.
Lemma nodup_flat_map : forall A (f : A -> list nat) (R : A -> A -> Prop) ms, ForallOrdPairs R ms ->
  (forall m, In m ms -> NoDup (f m)) ->
  (forall a b u, In a ms -> In b ms -> R a b -> In u (f a) -> ~ In u (f b)) -> NoDup (flat_map f ms).
Proof.
  intros A f R ms H. induction H as [|a l F P IH]; simpl; intros N D; [constructor|].
  apply nodup_app.
  - apply N; auto.
  - apply IH; auto. intros x y u Hx Hy. apply D; auto.
  - intros u Hu X. apply in_flat_map in X. destruct X as [b [Hb X]]. rewrite Forall_forall in F.
    apply (D a b u); auto.
Qed.

Theorem pivot_core : forall so P g ms o g1 g2 g3, so_ok so -> pcl P -> zxok g -> allph P g ->
  (forall m, In m ms -> pv_ok g m) -> ForallOrdPairs (pv_far g) ms ->
  pivot so ms g = Ok o ->
  add_edge_table (rw_etab o) (rw_graph o) = Ok g1 -> remove_edges (rw_edges o) g1 = Ok g2 ->
  remove_vertices (rw_verts o) g2 = Ok g3 -> step_ok g g3 /\ allph P g3.
Proof.
  intros so P g ms o g1 g2 g3 SO PC ZX AP HO HF H E1 E2 E3.
  assert (W := zx_wf g ZX). assert (NL := zx_noloop g ZX).
  set (A := flat_map pv_vs ms). set (rem := flat_map pv_rem ms). set (kp := flat_map pv_kp ms).
  set (core := keep A g). set (L := keep rem g).
  assert (PP : forall m, In m ms -> Permutation (pv_vs m) (pv_rem m ++ pv_kp m)).
  { intros [[v0 v1] [b0 b1]] _. unfold pv_vs. cbn [fst snd pv_rem pv_kp].
    destruct b0, b1; cbn [app]; try apply Permutation_refl; apply perm_swap. }
  assert (VS : forall m v, In v (pv_vs m) <-> v = fst (fst m) \/ v = snd (fst m)).
  { intros m v. unfold pv_vs. simpl. intuition. }
  assert (NDA : NoDup A).
  { apply nodup_flat_map with (R := pv_far g); auto.
    - intros [[v0 v1] bb] Hm. specialize (HO _ Hm). destruct bb. destruct HO as [X _]. unfold pv_vs. simpl.
      constructor; [|constructor; [simpl; tauto|constructor]]. simpl. intuition.
    - intros a b u _ _ F Ha Hb. apply VS in Ha, Hb. destruct (F u u Ha Hb) as [X _]. congruence. }
  assert (PA : Permutation A (rem ++ kp)).
  { eapply perm_trans; [apply flat_map_perm_ext; exact PP|]. apply flat_map_app_perm. }
  assert (IA : forall v, In v A <-> In v rem \/ In v kp).
  { intros v. rewrite <- in_app_iff. split; apply Permutation_in; [|apply Permutation_sym]; auto. }
  assert (NRK : NoDup (rem ++ kp)) by (eapply Permutation_NoDup; eauto).
  destruct (nodup_app_inv _ _ _ NRK) as [NR [NK DRK]].
  assert (AV : forall v, In v A -> In v (vertices g) /\ isB g v = false).
  { intros v Hv. apply in_flat_map in Hv. destruct Hv as [[[v0 v1] [b0 b1]] [Hm Hv]].
    destruct (HO _ Hm) as [_ [T0 [T1 [E _]]]]. apply VS in Hv. cbn [fst snd] in Hv. destruct Hv as [->| ->].
    - split; [apply (edge_type_in_l g v0 v1); congruence|unfold isB; rewrite T0; reflexivity].
    - split; [apply (edge_type_in_l g v1 v0); rewrite (wf_sym g W); congruence|unfold isB; rewrite T1; reflexivity]. }
  assert (CL : forall u, In u core -> In u L).
  { intros u Hu. apply in_keep in Hu. apply in_keep. rewrite IA in Hu. tauto. }
  assert (FF : forall m m' v u, In m ms -> In m' ms -> In v (pv_vs m) -> In u (pv_vs m') -> edge_type g v u <> None -> In u (pv_vs m)).
  { intros m m' v u Hm Hm' Hv Hu E. destruct (FOP_in _ _ _ m m' HF Hm Hm') as [<-|[F|F]]; auto.
    - apply VS in Hv, Hu. destruct (F v u Hv Hu) as [_ X]. contradiction.
    - apply VS in Hv, Hu. destruct (F u v Hu Hv) as [_ X]. rewrite (wf_sym g W) in X. contradiction. }
  assert (HM : forall m, In m ms -> pv_ok g m /\ (forall v, In v (pv_vs m) -> ~ In v core) /\
    (forall v u, In v (pv_vs m) -> In u (neighbors g v) -> ~ In u (pv_vs m) -> In u core) /\
    (forall v, In v (pv_kp m) -> In v L)).
  { intros m Hm. split; [auto|]. split; [|split].
    - intros v Hv X. apply in_keep in X. apply X. apply in_flat_map. eauto.
    - intros v u Hv Hu Hn. apply in_keep. split; [apply (neighbors_in g v); auto|].
      intros X. apply in_flat_map in X. destruct X as [m' [Hm' X]]. apply Hn. apply (FF m m' v u); auto. apply neighbors_spec; auto.
    - intros v Hv. assert (K : In v kp) by (apply in_flat_map; eauto). apply in_keep. split; [apply AV, IA; auto|].
      intros X. apply (DRK v); auto. }
  destruct (pivot_fold so g core L ms SO W NL (keep_nd A g W) (keep_nd rem g W) CL HM g [] [] []) as
    [g' [tab' [X1 [X2 [X3 [X4 [X5 [X6 [X7 X8]]]]]]]]]; auto.
  { apply same_frame_refl. }
  { apply tabL_nil. }
  unfold pivot in H. rewrite X1 in H. cbn [bind] in H. injection H as <-. cbn [rw_graph rw_etab rw_verts rw_edges app] in E1, E2, E3.
  fold rem in E3. set (reme := flat_map pv_reme ms) in *.
  assert (RE : forall s t, In (s,t) reme -> s <> t /\ (In s rem \/ In t rem)).
  { intros s t Hst. apply in_flat_map in Hst. destruct Hst as [m [Hm Hst]].
    assert (Hr : forall v, In v (pv_rem m) -> In v rem) by (intros; apply in_flat_map; eauto).
    destruct m as [[v0 v1] [b0 b1]]. destruct (HO _ Hm) as [_ [_ [_ [_ [_ [_ [[S0 _] [[S1 _] S9]]]]]]]].
    destruct S9 as [->| ->].
    - destruct S1 as [->|[u [-> [Y1 [Y2 Y3]]]]]; [destruct Hst|]. cbn [pv_reme pv_rem] in *. destruct Hst as [Hst|[]].
      assert (v1 <> u) by (intros ->; rewrite NL in Y2; auto).
      unfold mkedge in Hst. destruct (Nat.ltb _ _); injection Hst as <- <-; split; auto; [left|right]; apply Hr; simpl; auto.
    - destruct S0 as [->|[u [-> [Y1 [Y2 Y3]]]]]; [destruct Hst|]. cbn [pv_reme pv_rem] in *. destruct Hst as [Hst|[]].
      assert (v0 <> u) by (intros ->; rewrite NL in Y2; auto).
      unfold mkedge in Hst. destruct (Nat.ltb _ _); injection Hst as <- <-; split; auto; [left|right]; apply Hr; simpl; auto. }
  split.
  - apply (batch_sound2 g A rem kp g' tab' reme g1 g2 g3); auto.
    + apply X6; [exact pcl_in02|]. exact (zx_ph g ZX).
    + intros x. fold core.
      unfold A at 1 2. rewrite batch_sum.
      2:{ fold A. apply nodup_app; auto; [apply keep_nd; auto|]. intros v Hv Hk. apply in_keep in Hk. tauto. }
      2:{ eapply ForallOrdPairs_imp; [|exact HF]. intros a b _ _ F u w Hu Hw. apply VS in Hu, Hw. apply F; auto. }
      assert (LG : forall m y, In m ms -> loc g' (pv_kp m) core y = loc g (pv_kp m) core y).
      { intros m y Hm. unfold loc.
        assert (KN : forall v, In v (pv_kp m) -> ~ In v core).
        { intros v Hv X. apply in_keep in X. apply X. apply IA. right. apply in_flat_map. eauto. }
        assert (EWE : forall u v a b, ew g' u v a b = ew g u v a b).
        { intros. unfold ew, edge_type. rewrite X4, !(same_frame_isX g g') by auto. reflexivity. }
        f_equal; [f_equal|].
        - apply cprod_ext. intros v Hv. unfold pw. rewrite (same_frame_isB g g'), X7 by auto. reflexivity.
        - apply pprod_ext. intros; apply EWE.
        - apply cprod_ext; intros; apply cprod_ext; intros; apply EWE. }
      rewrite (sumv_ext kp _ (fun y => integL core g y * cprod (fun m => loc g (pv_kp m) core y * pv_eff so g m y) ms)).
      2:{ intros y. unfold kp. rewrite integL_batch.
          - rewrite cprod_mult. rewrite (cprod_ext _ (fun m => loc g' (pv_kp m) core y) (fun m => loc g (pv_kp m) core y)) by auto.
            transitivity ((integL core g' y * tabw g tab' y) * cprod (fun m => loc g (pv_kp m) core y) ms); [ring|].
            rewrite X8. unfold tabw at 1. cbn [cprod]. ring.
          - eapply ForallOrdPairs_imp; [|exact HF]. intros a b Ia Ib F u w Hu Hw.
            assert (In u (pv_vs a)) by (eapply Permutation_in; [apply Permutation_sym, PP; auto|apply in_app_iff; auto]).
            assert (In w (pv_vs b)) by (eapply Permutation_in; [apply Permutation_sym, PP; auto|apply in_app_iff; auto]).
            unfold edge_type. rewrite X4. apply VS in H, H0. apply F; auto. }
      rewrite (sumv_mult_indep kp (fun y => integL core g y)).
      2:{ intros y v b Hv. apply integL_indep. intros X. apply in_keep in X. apply X. apply IA. auto. }
      f_equal. unfold kp. rewrite (sumv_groups _ pv_kp (fun m y => loc g (pv_kp m) core y * pv_eff so g m y) ms x).
      * apply cprod_ext. intros m Hm. destruct (HM m Hm) as [Y1 [Y2 [Y3 _]]]. apply pv_local; auto. apply keep_nd; auto.
      * exact NK.
      * intros m y w c Hm Hw Hn.
        assert (~ In w core) by (intros X; apply in_keep in X; apply X; apply IA; auto).
        rewrite loc_indep by auto. f_equal. destruct (HM m Hm) as [Y1 [Y2 [Y3 _]]].
        apply (pv_eff_indep so g m core); auto.
  - exact (batch_allph2 P L rem tab' reme g' g1 g2 g3 PC (keep_nd rem g W) X2 (X6 P PC AP) X5 (fun s t Hst => proj1 (RE s t Hst)) E1 E2 E3).
Qed.

Theorem pivot_step_matches : forall so K P g ms o g', so_ok so -> good K P -> zxok g -> allph P g ->
  (forall m, In m ms -> pv_ok g m) -> ForallOrdPairs (pv_far g) ms ->
  pivot so ms g = Ok o -> apply_rw o = Ok g' -> step_k K g g' /\ allph P g'.
Proof.
  intros so K P g ms o g' SO G ZX AP HO HF H E. eapply apply_rw_sound; eauto.
  intros g1 g2 g3 E1 E2 E3. apply (pivot_core so P g ms o g1 g2 g3); auto. apply G.
Qed.

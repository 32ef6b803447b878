(** The multigraph backend: the value of a diagram with parallel wires. *)
From Coq Require Import Reals ZArith QArith Qcanon List Bool Arith Lia Permutation.
From Verif Require Import CNum Base ScalarModel ScalarProofs GraphModel GraphProofs GraphSem SumLemmas GraphOps LcompProofs UnfuseProofs MultiModel MultiProofs.
Import ListNotations.
Open Scope C_scope.

(** ** Specification: diagrams with any number of wires between two vertices *)
Record diag := mkD { dvs : list nat; dty : nat -> vtype; dph : nat -> Qc; dk : C; dcnt : nat -> nat -> etype -> nat }.
Definition dX (D : diag) (v : nat) : bool := vtype_eqb (dty D v) XSP.
Definition dB (D : diag) (v : nat) : bool := vtype_eqb (dty D v) BOUNDARY.
(** each wire between u and v contributes its weight once *)
Definition wires (D : diag) (u v : nat) (a b : bool) : C :=
  cpow (wt (Some (tog (xorb (dX D u) (dX D v)) SIMPLE)) a b) (dcnt D u v SIMPLE) *
  cpow (wt (Some (tog (xorb (dX D u) (dX D v)) HADAMARD)) a b) (dcnt D u v HADAMARD).
(** spider weights and self-loops *)
Definition spot (D : diag) (v : nat) (a : bool) : C := (if dB D v then C1 else ephase (dph D v) a) * wires D v v a a.
Definition dint (D : diag) (x : assignment) : C :=
  dk D * cprod (fun v => spot D v (x v)) (dvs D) * pprod (fun u v => wires D u v (x u) (x v)) (dvs D).
Definition dval (D : diag) (b : assignment) : C := sumv (filter (fun v => negb (dB D v)) (dvs D)) (dint D) b.
(** the same diagram with one wire more *)
Definition add_wire (s t : nat) (ty : etype) (D : diag) : diag :=
  mkD (dvs D) (dty D) (dph D) (dk D) (fun u v e => if pair_hit s t u v && etype_eqb e ty then S (dcnt D u v e) else dcnt D u v e).

(** the diagram stored in a multigraph *)
Definition ecount (e : medge) (ty : etype) : nat := Z.to_nat (match ty with SIMPLE => es e | HADAMARD => eh e end).
Definition mview (h : heap) (g : mgraph) : diag := mkD (mverts g) (tyof g) (m_phase g) (to_number (mscalar g)) (fun u v ty => ecount (cur h g u v) ty).

(** *** powers of wire weights *)
Lemma dlt_pow : forall a b n, (0 < n)%nat -> cpow (dlt a b) n = dlt a b.
Proof.
  intros a b n N. destruct n as [|n]; [lia|]. clear N. induction n as [|n IH]; [cbn [cpow]; ring|]. change (cpow (dlt a b) (S (S n))) with (dlt a b * cpow (dlt a b) (S n)). rewrite IH. unfold dlt. destruct (Bool.eqb a b); ring.
Qed.
Lemma had_sq : forall a b, wt (Some HADAMARD) a b * wt (Some HADAMARD) a b = sq2p (-2).
Proof.
  intros a b. cbn [wt]. replace (-2)%Z with (-1 + -1)%Z by reflexivity. rewrite sq2p_add. destruct (a && b); unfold sgn; ring.
Qed.
Lemma had_pow : forall a b n, cpow (wt (Some HADAMARD) a b) n = sq2p (- (Z.of_nat n - Z.of_nat n mod 2)) * cpow (wt (Some HADAMARD) a b) (Z.to_nat (Z.of_nat n mod 2)).
Proof.
  intros a b n. induction n as [n IH] using lt_wf_ind. destruct n as [|[|n]].
  - change (Z.of_nat 0 mod 2)%Z with 0%Z. cbn [Z.of_nat Z.sub Z.opp Z.add]. rewrite sq2p_0. cbn [cpow Z.to_nat]. ring.
  - change (Z.of_nat 1 mod 2)%Z with 1%Z. change (- (Z.of_nat 1 - 1))%Z with 0%Z. rewrite sq2p_0. change (Z.to_nat 1) with 1%nat. cbn [cpow]. ring.
  - change (cpow (wt (Some HADAMARD) a b) (S (S n))) with (wt (Some HADAMARD) a b * (wt (Some HADAMARD) a b * cpow (wt (Some HADAMARD) a b) n)).
    replace (Z.of_nat (S (S n))) with (Z.of_nat n + 1 * 2)%Z by lia. rewrite Z_mod_plus_full. rewrite (IH n) by lia.
    replace (- (Z.of_nat n + 1 * 2 - Z.of_nat n mod 2))%Z with (-2 + - (Z.of_nat n - Z.of_nat n mod 2))%Z by ring. rewrite sq2p_add, <- (had_sq a b). ring.
Qed.

(** *** one pair of the pair product *)
Lemma pprod_one_pair : forall c s t l, NoDup l -> In s l -> In t l -> s <> t -> pprod (fun u v => if pair_hit s t u v then c else C1) l = c.
Proof.
  intros c s t. assert (P0 : forall l, ~ (In s l /\ In t l) -> NoDup l -> pprod (fun u v => if pair_hit s t u v then c else C1) l = C1).
  { intros l H N. rewrite (pprod_ext_nd l _ (fun _ _ => C1)); [apply pprod_1; reflexivity|exact N|]. intros u v U V _. destruct (pair_hit s t u v) eqn:P; [|reflexivity]. apply phit in P. exfalso. apply H. destruct P as [[-> ->]|[-> ->]]; split; assumption. }
  induction l as [|w l IH]; intros N S T ST; [destruct S|]. inversion N as [|? ? N1 N2]; subst. cbn [pprod].
  assert (CP : forall a z, a <> z -> In z l -> (forall u v, pair_hit s t u v = true <-> (u = a /\ v = z) \/ (u = z /\ v = a)) -> cprod (fun v => if pair_hit s t a v then c else C1) l = c).
  { clear - N2. intros a z AZ Z HP. rewrite (cprod_ext _ _ (fun v => if Nat.eqb v z then c else C1)).
    - clear HP. induction l as [|y l IH]; [destruct Z|]. inversion N2; subst. cbn [cprod]. destruct (Nat.eqb_spec y z) as [->|].
      + rewrite cprod_1; [ring|]. intros v V. destruct (Nat.eqb_spec v z) as [->|]; [contradiction|reflexivity].
      + destruct Z as [Z|Z]; [congruence|]. rewrite IH by assumption. ring.
    - intros v V. destruct (pair_hit s t a v) eqn:P.
      + apply HP in P. destruct P as [[_ ->]|[X _]]; [rewrite Nat.eqb_refl; reflexivity|congruence].
      + destruct (Nat.eqb_spec v z) as [->|]; [|reflexivity]. exfalso. assert (X : pair_hit s t a z = true) by (apply HP; auto). congruence. }
  destruct S as [->|S], T as [->|T]; [congruence|..].
  - rewrite (CP s t ST T) by (intros; apply phit). rewrite P0; [ring|intros [X _]; contradiction|exact N2].
  - rewrite (CP t s) by (auto; intros; rewrite phit; tauto). rewrite P0; [ring|intros [_ X]; contradiction|exact N2].
  - rewrite (IH N2 S T ST). rewrite cprod_1; [ring|]. intros v V. destruct (pair_hit s t w v) eqn:P; [|reflexivity]. apply phit in P. destruct P as [[-> ->]|[-> ->]]; contradiction.
Qed.

(** *** comparing diagrams that differ in the wires of one pair *)
Lemma dval_pair : forall D D' s t k c, NoDup (dvs D) -> In s (dvs D) -> In t (dvs D) ->
  dvs D' = dvs D -> (forall v, dty D' v = dty D v) -> (forall v, dph D' v = dph D v) -> dk D' = k * dk D ->
  (forall u v a b, u <> v -> pair_hit s t u v = true -> c * wires D' u v a b = wires D u v a b) -> (s = t -> c = C1) ->
  (forall u v e, pair_hit s t u v = false -> dcnt D' u v e = dcnt D u v e) -> (s = t -> forall e, dcnt D' s s e = dcnt D s s e) ->
  forall b, c * dval D' b = k * dval D b.
Proof.
  intros D D' s t k c ND S T V TY PH K HIT CS CN CL b. unfold dval.
  assert (BB : forall v, dB D' v = dB D v) by (intros v; unfold dB; rewrite TY; reflexivity).
  assert (XX : forall v, dX D' v = dX D v) by (intros v; unfold dX; rewrite TY; reflexivity).
  rewrite V. rewrite (filter_ext _ (fun v => negb (dB D v))) by (intros v; rewrite BB; reflexivity).
  rewrite <- !sumv_scal. apply sumv_ext. intros x. unfold dint. rewrite V, K.
  assert (WO : forall u v a b, pair_hit s t u v = false -> wires D' u v a b = wires D u v a b) by (intros u v a d P; unfold wires; rewrite !XX, !CN by exact P; reflexivity).
  assert (SP : cprod (fun v => spot D' v (x v)) (dvs D) = cprod (fun v => spot D v (x v)) (dvs D)).
  { apply cprod_ext. intros v _. unfold spot. rewrite BB, PH. f_equal. destruct (pair_hit s t v v) eqn:P; [|apply WO; exact P]. apply phit in P. destruct P as [[-> E]|[-> E]]; unfold wires; rewrite !XX; [rewrite !(CL E)|rewrite E, !(CL (eq_sym E))]; reflexivity. }
  rewrite SP.
  assert (PP : c * pprod (fun u v => wires D' u v (x u) (x v)) (dvs D) = pprod (fun u v => wires D u v (x u) (x v)) (dvs D)).
  { destruct (Nat.eq_dec s t) as [E|ST].
    - rewrite (CS E). transitivity (pprod (fun u v => wires D' u v (x u) (x v)) (dvs D)); [ring|]. apply pprod_ext_nd; [exact ND|]. intros u v _ _ UV. apply WO. apply phit_f. intros [[-> ->]|[-> ->]]; congruence.
    - rewrite <- (pprod_one_pair c s t (dvs D) ND S T ST) at 1. rewrite <- pprod_mult. apply pprod_ext_nd; [exact ND|]. intros u v _ _ UV. destruct (pair_hit s t u v) eqn:P; [apply HIT; assumption|]. rewrite WO by exact P. ring. }
  rewrite <- PP. ring.
Qed.

Lemma ecount_plus : forall e ty ty', nonneg e -> ecount (plus1 ty e) ty' = if etype_eqb ty' ty then S (ecount e ty') else ecount e ty'.
Proof. intros e [] [] [A B]; unfold ecount; cbn [plus1 es eh etype_eqb]; lia. Qed.
Lemma mview_nd : forall h g, mwf h g -> NoDup (dvs (mview h g)).
Proof. intros h g W. apply (w_nd _ _ W). Qed.

Lemma pow_clip : forall a b n, cpow (dlt a b) (Z.to_nat (if (n >? 0)%Z then 1 else 0)) = cpow (dlt a b) (Z.to_nat n).
Proof.
  intros a b n. destruct (Z.gtb_spec n 0).
  - change (Z.to_nat 1) with 1%nat. rewrite !dlt_pow by lia. reflexivity.
  - replace (Z.to_nat n) with 0%nat by lia. reflexivity.
Qed.
Lemma pow_mod : forall a b n, (0 <= n)%Z -> sq2p (- (n - n mod 2)) * cpow (wt (Some HADAMARD) a b) (Z.to_nat (n mod 2)) = cpow (wt (Some HADAMARD) a b) (Z.to_nat n).
Proof. intros a b n N. rewrite (had_pow a b (Z.to_nat n)). rewrite Z2Nat.id by exact N. reflexivity. Qed.

(** ** add_edge *)
Theorem add_edge_value : forall s t ty h g, mwf h g -> In s (mverts g) -> In t (mverts g) -> (s <> t \/ mauto g && spider g s && spider g t = false) ->
  exists h' g', m_add_edge s t ty (h, g) = Ok (h', g') /\ mwf h' g' /\ minputs g' = minputs g /\ moutputs g' = moutputs g /\
  let k := cancelling g s t (plus1 ty (cur h g s t)) in
  forall b, dval (mview h' g') b = sq2p (- (k - k mod 2)) * dval (add_wire s t ty (mview h g)) b.
Proof.
  intros s t ty h g W S T ST. destruct (add_edge_shape s t ty h g W S T ST) as (h' & g' & E & W' & V' & A' & TY' & P' & I' & O' & M' & SC' & C'). exists h', g'.
  split; [exact E|]. split; [exact W'|]. split; [exact I'|]. split; [exact O'|]. cbv zeta. set (k := cancelling g s t (plus1 ty (cur h g s t))) in *.
  pose proof (cur_nonneg h g s t W) as NN. pose proof (plus1_nonneg ty _ NN) as NE. set (e := plus1 ty (cur h g s t)) in *.
  assert (CS : forall u v, pair_hit s t u v = true -> cur h g u v = cur h g s t).
  { intros u v P. apply phit in P. destruct P as [[-> ->]|[-> ->]]; [reflexivity|]. unfold cur. destruct (mref g t s) as [r|] eqn:X; [rewrite (w_sym _ _ W _ _ _ X); reflexivity|]. destruct (mref g s t) as [r|] eqn:Y; [apply (w_sym _ _ W) in Y; congruence|reflexivity]. }
  assert (CA : forall u v e', pair_hit s t u v = true -> dcnt (add_wire s t ty (mview h g)) u v e' = ecount e e').
  { intros u v e' P. cbn [add_wire dcnt mview]. rewrite P. cbn [andb]. rewrite (CS u v P). unfold e. rewrite ecount_plus by exact NN. reflexivity. }
  intros b.
  assert (K0 : sq2p (-2 * (k - k mod 2)) = sq2p (- (k - k mod 2)) * sq2p (- (k - k mod 2))) by (rewrite <- sq2p_add; f_equal; ring).
  assert (G : sq2p (- (k - k mod 2)) * dval (mview h' g') b = sq2p (-2 * (k - k mod 2)) * dval (add_wire s t ty (mview h g)) b).
  { apply (dval_pair (add_wire s t ty (mview h g)) (mview h' g') s t).
    - apply (w_nd _ _ W).
    - exact S.
    - exact T.
    - exact V'.
    - intros v. cbn [add_wire dty mview]. unfold tyof. rewrite TY'. reflexivity.
    - intros v. cbn [add_wire dph mview]. unfold m_phase. rewrite P'. reflexivity.
    - exact SC'.
    - intros u v a d UV P. unfold wires. rewrite !CA by exact P. cbn [mview dcnt]. rewrite !C', P.
      assert (XU : xorb (dX (mview h' g') u) (dX (mview h' g') v) = xorb (vtype_eqb (tyof g s) XSP) (vtype_eqb (tyof g t) XSP)).
      { unfold dX. cbn [mview dty]. unfold tyof. rewrite TY'. apply phit in P. destruct P as [[-> ->]|[-> ->]]; [reflexivity|apply xorb_comm]. }
      assert (XU' : xorb (dX (add_wire s t ty (mview h g)) u) (dX (add_wire s t ty (mview h g)) v) = xorb (vtype_eqb (tyof g s) XSP) (vtype_eqb (tyof g t) XSP)).
      { unfold dX. cbn [add_wire mview dty]. apply phit in P. destruct P as [[-> ->]|[-> ->]]; [reflexivity|apply xorb_comm]. }
      rewrite XU, XU'. unfold after. unfold k, cancelling. fold e. destruct (mauto g && spider g s && spider g t) eqn:SP.
      2:{ change (- (0 - 0 mod 2))%Z with 0%Z. rewrite sq2p_0. ring. }
      assert (XE : xorb (vtype_eqb (tyof g s) XSP) (vtype_eqb (tyof g t) XSP) = negb (vtype_eqb (tyof g s) (tyof g t))).
      { apply andb_prop in SP. destruct SP as [SP SP2]. apply andb_prop in SP. destruct SP as [_ SP1]. unfold spider in SP1, SP2. unfold tyof. destruct (dget s (mty g)) as [[]|], (dget t (mty g)) as [[]|]; try discriminate; reflexivity. }
      rewrite XE. destruct NE as [N1 N2]. destruct (vtype_eqb (tyof g s) (tyof g t)); cbn [negb tog toggle_edge]; unfold ecount; cbn [es eh]; change (wt (Some SIMPLE) a d) with (dlt a d); rewrite pow_clip.
      + rewrite <- (pow_mod a d (eh e)) by exact N2. ring.
      + rewrite <- (pow_mod a d (es e)) by exact N1. ring.
    - intros X. destruct ST as [ST|ST]; [congruence|]. unfold k, cancelling. rewrite ST. change (- (0 - 0 mod 2))%Z with 0%Z. apply sq2p_0.
    - intros u v e' P. cbn [mview add_wire dcnt]. rewrite C', P. reflexivity.
    - intros X e'. subst t. rewrite CA by apply pair_hit_st. cbn [mview dcnt]. rewrite C', pair_hit_st. destruct ST as [ST|ST]; [congruence|]. unfold after. rewrite ST. reflexivity. }
  rewrite K0 in G. assert (NZ : sq2p (- (k - k mod 2)) <> C0) by apply sq2p_neq0.
  apply (Cmult_cancel_l _ _ _ NZ). rewrite G. ring.
Qed.

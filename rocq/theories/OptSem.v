(** Identities between the gates the optimizer handles, and the layers of
    Hadamard, Z and NOT gates that it postpones *)
From Coq Require Import Reals ZArith QArith Qcanon List Bool Arith Lia FunctionalExtensionality.
From Verif Require Import LinModel PermModel CNum Base ScalarModel ScalarProofs GateModel OptModel GraphSem SumLemmas CircSpec GateProofs GateDecomp GateAdj OptTrace.
Import ListNotations.
Open Scope C_scope.

(** ** lists of qubits *)
Lemma nremove_in : forall t l q, NoDup l -> (In q (nremove t l) <-> In q l /\ q <> t).
Proof.
  induction l as [|a l IH]; intros q N; [simpl; tauto|]. inversion N as [|? ? N1 N2]; subst. simpl. destruct (Nat.eqb_spec a t) as [->|Na].
  - split; [intros H; split; auto; intros ->; auto|]. intros [[->|H] K]; auto. congruence.
  - simpl. rewrite IH by auto. split; [intros [->|[H K]]; auto|intros [[->|H] K]; auto].
Qed.
Lemma nremove_nodup : forall t l, NoDup l -> NoDup (nremove t l).
Proof.
  induction l as [|a l IH]; intros N; [simpl; constructor|]. inversion N as [|? ? N1 N2]; subst. simpl. destruct (Nat.eqb a t); auto. constructor; auto.
  intros H. apply nremove_in in H; tauto.
Qed.
Lemma nremove_mem : forall t l q, NoDup l -> nmem q (nremove t l) = nmem q l && negb (Nat.eqb q t).
Proof.
  intros t l q N. apply eq_true_iff_eq. rewrite andb_true_iff, negb_true_iff, Nat.eqb_neq, !nmem_in. apply nremove_in. auto.
Qed.
Lemma nmem_app : forall q l m, nmem q (l ++ m) = nmem q l || nmem q m. Proof. intros. apply existsb_app. Qed.
Lemma nmem_one : forall q t, nmem q [t] = Nat.eqb q t. Proof. intros. simpl. apply orb_false_r. Qed.
Lemma toggle_mem : forall l t q, NoDup l -> nmem q (toggle_element l t) = xorb (nmem q l) (Nat.eqb q t).
Proof.
  intros l t q N. unfold toggle_element. destruct (nmem t l) eqn:E.
  - rewrite nremove_mem by auto. destruct (Nat.eqb_spec q t) as [->|]; [rewrite E; auto|]. rewrite andb_true_r, xorb_false_r. auto.
  - rewrite nmem_app, nmem_one. destruct (Nat.eqb_spec q t) as [->|]; [rewrite E; auto|]. rewrite orb_false_r, xorb_false_r. auto.
Qed.
Lemma nodup_snoc : forall (l : list nat) t, NoDup l -> ~ In t l -> NoDup (l ++ [t]).
Proof.
  induction l as [|a l IH]; intros t N H; [constructor; auto; constructor|]. inversion N; subst. simpl. constructor; [|apply IH; auto; intros K; apply H; right; auto].
  rewrite in_app_iff. intros [K|[K|[]]]; auto. apply H. left; auto.
Qed.
Lemma toggle_nodup : forall l t, NoDup l -> NoDup (toggle_element l t).
Proof. intros l t N. unfold toggle_element. destruct (nmem t l) eqn:E; [apply nremove_nodup; auto|]. apply nodup_snoc; auto. apply nmem_false; auto. Qed.

(** ** parities *)
Definition addx (x y : assignment) : assignment := fun q => xorb (x q) (y q).
Lemma parity_add : forall zs x y, parity zs (addx x y) = xorb (parity zs x) (parity zs y).
Proof. induction zs as [|z zs IH]; intros x y; auto. simpl. rewrite IH. unfold addx. destruct (x z), (y z), (parity zs x), (parity zs y); auto. Qed.
Lemma parity_app : forall a b x, parity (a ++ b) x = xorb (parity a x) (parity b x).
Proof. induction a as [|z a IH]; intros b x; [simpl; destruct (parity b x); auto|]. simpl. rewrite IH. destruct (x z), (parity a x), (parity b x); auto. Qed.
Lemma parity_nremove : forall t zs x, nmem t zs = true -> parity (nremove t zs) x = xorb (parity zs x) (x t).
Proof.
  induction zs as [|z zs IH]; intros x H; [discriminate|]. simpl in *. destruct (Nat.eqb_spec z t) as [->|N]; [destruct (x t), (parity zs x); auto|].
  simpl. rewrite IH; [|destruct (Nat.eqb_spec t z); auto; congruence]. destruct (x z), (x t), (parity zs x); auto.
Qed.
Lemma parity_toggle : forall t zs x, parity (toggle_element zs t) x = xorb (parity zs x) (x t).
Proof. intros. unfold toggle_element. destruct (nmem t zs) eqn:E; [apply parity_nremove; auto|]. rewrite parity_app. simpl. destruct (x t), (parity zs x); auto. Qed.
Lemma sgn_x : forall a b, sgn (xorb a b) = sgn a * sgn b.
Proof. intros [] []; unfold sgn; simpl; ring. Qed.
Lemma unit_sgn : forall b, unitc (sgn b).
Proof. intros []; unfold sgn; [apply unit_m1|apply unit_1]. Qed.

(** ** gates *)
Lemma gden_not : forall t s, gden (NOTg t) s = fun x => s (flip x t).
Proof.
  intros t s. apply state_ext. intros x. unfold NOTg. cbn [gden]. unfold op1, mXP, mk2, flip. rewrite cexp_1.
  destruct (x t) eqn:E; cbn [negb]; field; apply two_neq0.
Qed.
Lemma gden_zg : forall t s, gden (Zg t) s = fun x => sgn (x t) * s x.
Proof. intros. unfold Zg. rewrite gden_z. apply state_ext. intros x. rewrite cexp_1. destruct (x t); reflexivity. Qed.
Lemma gden_h : forall t s x, gden (GHAD t) s x = / sq2 * (s (upd x t false) + sgn (x t) * s (upd x t true)).
Proof. intros. cbn [gden]. unfold op1, mH, mk2. destruct (x t); unfold sgn; ring. Qed.
Lemma had_had : forall t s, gden (GHAD t) (gden (GHAD t) s) = s.
Proof. intros. cbn [gden]. rewrite op1_op1, (op1_ext _ mI), op1_I; auto. apply mH_inv. Qed.
Definition mZ : mat2 := mk2 C1 C0 C0 (- C1).
Lemma cz_cond : forall c t s, gden (GCZ c t) s = cond c mI mZ t s.
Proof.
  intros. apply state_ext. intros x. cbn [gden]. unfold cond. destruct (x c); [|rewrite op1_I; unfold sgn; simpl; ring].
  unfold op1, mZ, mk2. cbn [andb]. destruct (x t) eqn:E; rewrite <- E, upd_id, E; unfold sgn; ring.
Qed.
Lemma cz_sym : forall c t s, gden (GCZ c t) s = gden (GCZ t c) s.
Proof. intros. apply state_ext. intros x. cbn [gden]. rewrite andb_comm. auto. Qed.
Lemma cz_cz : forall c t s, gden (GCZ c t) (gden (GCZ c t) s) = s.
Proof. intros. apply state_ext. intros x. cbn [gden]. transitivity ((sgn (x c && x t) * sgn (x c && x t)) * s x); [ring|]. rewrite sgn_sq. ring. Qed.
Lemma cnot_cnot : forall c t s, c <> t -> gden (GCNOT c t) (gden (GCNOT c t) s) = s.
Proof.
  intros. apply state_ext. intros x. cbn [gden]. rewrite upd_same, upd_shadow, upd_other by auto. f_equal.
  replace (xorb (xorb (x t) (x c)) (x c)) with (x t) by (destruct (x t), (x c); auto). apply upd_id.
Qed.
Lemma cnot_had : forall c t s, c <> t -> gden (GCNOT c t) (gden (GHAD t) s) = gden (GHAD t) (gden (GCZ c t) s).
Proof.
  intros c t s N. rewrite cz_cond, cnot_cond. cbn [gden]. rewrite !(op1_cond c t), !(cond_cond c t N). apply (cond_ext c t); intros i j; unfold mmul, mI, mX, mZ, mH, mk2; destruct i, j; ring.
Qed.
Lemma cz_had : forall c t s, c <> t -> gden (GCZ c t) (gden (GHAD t) s) = gden (GHAD t) (gden (GCNOT c t) s).
Proof.
  intros c t s N. rewrite cz_cond, cnot_cond. cbn [gden]. rewrite !(op1_cond c t), !(cond_cond c t N). apply (cond_ext c t); intros i j; unfold mmul, mI, mX, mZ, mH, mk2; destruct i, j; ring.
Qed.
Lemma had_comm : forall t g s, wg g -> onq t g = false -> gden (GHAD t) (gden g s) = gden g (gden (GHAD t) s).
Proof.
  intros t g s W N. apply gates_commute; auto; [exact I|]. intros q A B. unfold onq in A. simpl in A. rewrite orb_false_r in A. apply Nat.eqb_eq in A. subst q. congruence.
Qed.
Lemma cnot_had2 : forall c t s, c <> t -> gden (GCNOT c t) (gden (GHAD c) (gden (GHAD t) s)) = gden (GHAD c) (gden (GHAD t) (gden (GCNOT t c) s)).
Proof.
  intros c t s N. assert (HC : forall s, gden (GHAD c) (gden (GHAD t) s) = gden (GHAD t) (gden (GHAD c) s)) by (intros; cbn [gden]; apply op1_comm; auto).
  rewrite HC, cnot_had by auto. rewrite (cz_sym c t), cz_had by auto. rewrite HC. reflexivity.
Qed.
(** CNOT CZ = (S* x id) CNOT (S x S) *)
Lemma cnot_cz : forall c t s, c <> t -> gden (GCZ c t) (gden (GCNOT c t) s) = gden (Sg c false) (gden (Sg t false) (gden (GCNOT c t) (gden (Sg t true) s))).
Proof.
  intros c t s N. rewrite cz_cond, cnot_cond, cnot_cond. unfold Sg. cbn [gden]. rewrite (cphase_cond c t), !(op1_cond c t), !(cond_cond c t N).
  assert (I := Ci2). apply (cond_ext c t); intros i j; mexpand; unfold mZ, mk2; expn; destruct i, j; ring [I].
Qed.
Lemma cnot_swap_id : forall c t s, c <> t -> gden (GCNOT c t) (gden (GCNOT t c) s) = gden (GSWAP c t) (gden (GCNOT c t) s).
Proof.
  intros c t s N. apply state_ext. intros x. cbn [gden]. f_equal. apply functional_extensionality. intros q. unfold swapq, upd.
  assert (E1 : Nat.eqb c t = false) by (apply Nat.eqb_neq; auto). assert (E2 : Nat.eqb t c = false) by (apply Nat.eqb_neq; auto).
  rewrite ?Nat.eqb_refl, ?E1, ?E2. destruct (Nat.eqb_spec q c) as [->|]; rewrite ?E1; [destruct (x c), (x t); auto|].
  destruct (Nat.eqb_spec q t) as [->|]; destruct (x c), (x t); auto.
Qed.
(** HAD S HAD = S* HAD S*, up to a phase *)
Lemma hsh : forall t k k' k2 p, GateModel.qden p = 2%positive -> exists z, unitc z /\ forall s,
  gden (GHAD t) (gden (GZ k t p) (gden (GHAD t) s)) = fun x => z * gden (GZ k' t (qmod2 (- p)%Qc)) (gden (GHAD t) (gden (GZ k2 t (qmod2 (- p)%Qc)) s)) x.
Proof.
  intros t k k' k2 p D. assert (E := cexp_den2 p D).
  assert (Z : exists e, (e = Ci \/ e = - Ci) /\ cexp p = e /\ cexp (- p) = - e).
  { rewrite cexp_opp, E. destruct (_ =? 1)%Z; [exists Ci|exists (- Ci)]; rewrite ?cexp_12, ?cexp_m12; repeat split; auto;
    unfold Cconj, Ci, Copp; simpl; f_equal; ring. }
  destruct Z as [e [He [E1 E2]]]. assert (EE : e * e = - C1) by (assert (I := Ci2); destruct He; subst e; ring [I]).
  assert (NE : e <> C0) by (rewrite <- E1; apply cexp_neq0).
  exists (/ sq2 * (C1 + e)). split.
  { assert (W : / sq2 * (C1 + Ci) = cexp (frac 1 4)) by (rewrite cexp_14; ring). destruct He; subst e; [rewrite W; apply unit_cexp|].
    replace (/ sq2 * (C1 + - Ci)) with (Cconj (cexp (frac 1 4))); [unfold unitc; rewrite Cconj_invol, Cmult_comm; apply unit_cexp|].
    rewrite cexp_14. unfold sq2. rewrite <- RtoC_inv by apply sqrt2_neq0. unfold Cconj, C1, Ci, Copp, Cplus, Cmult, RtoC. simpl. f_equal; ring. }
  intros s. cbn [gden]. rewrite !op1_op1, <- op1_scale. apply op1_ext. assert (Q := sq2_sq). intros i j.
  unfold mmul, scale2, mH, mP, mk2. rewrite !cexp_qmod2, E1, E2. destruct i, j; field [Q EE]; nz.
Qed.

(** ** the layer of Z and NOT gates *)
Definition nx (ns : list nat) (x : assignment) : assignment := fun q => xorb (x q) (nmem q ns).
Definition pau (zs ns : list nat) (s : state) : state := fun x => sgn (parity zs x) * s (nx ns x).
Lemma pau_scale : forall zs ns z s, pau zs ns (fun x => z * s x) = fun x => z * pau zs ns s x.
Proof. intros. apply state_ext. intros x. unfold pau. ring. Qed.
Lemma pau_nil : forall s, pau [] [] s = s.
Proof. intros. apply state_ext. intros x. unfold pau, nx. simpl. unfold sgn. rewrite Cmult_1_l. f_equal. apply functional_extensionality. intros q. apply xorb_false_r. Qed.
Lemma pau_z : forall k t zs ns s, gden (GZ k t 1%Qc) (pau zs ns s) = pau (toggle_element zs t) ns s.
Proof. intros. rewrite gden_z. apply state_ext. intros x. unfold pau. rewrite parity_toggle, sgn_x, cexp_1. destruct (x t); unfold sgn; ring. Qed.
Lemma flip_add : forall x t, flip x t = addx x (fun q => Nat.eqb q t).
Proof. intros. apply functional_extensionality. intros q. unfold flip, upd, addx. destruct (Nat.eqb_spec q t) as [->|]; [destruct (x t)|rewrite xorb_false_r]; auto. Qed.
Lemma pau_not : forall t zs ns, NoDup ns -> exists z, unitc z /\ forall s, gden (NOTg t) (pau zs ns s) = fun x => z * pau zs (toggle_element ns t) s x.
Proof.
  intros t zs ns N. exists (sgn (parity zs (fun q => Nat.eqb q t))). split; [apply unit_sgn|]. intros s. rewrite gden_not. apply state_ext. intros x. unfold pau.
  rewrite flip_add, parity_add, sgn_x. transitivity (sgn (parity zs (fun q => Nat.eqb q t)) * (sgn (parity zs x) * s (nx ns (addx x (fun q => Nat.eqb q t))))); [ring|].
  do 3 f_equal. apply functional_extensionality. intros q. unfold nx, addx. rewrite toggle_mem by auto. destruct (x q), (nmem q ns), (Nat.eqb q t); auto.
Qed.
Lemma pau_cz : forall a b zs ns,
  let zs1 := if nmem a ns then toggle_element zs b else zs in
  let zs2 := if nmem b ns then toggle_element zs1 a else zs1 in
  exists z, unitc z /\ forall s, gden (GCZ a b) (pau zs ns s) = fun x => z * pau zs2 ns (gden (GCZ a b) s) x.
Proof.
  intros a b zs ns zs1 zs2. exists (sgn (nmem a ns && nmem b ns)). split; [apply unit_sgn|]. intros s. apply state_ext. intros x. cbn [gden]. unfold pau.
  assert (E : parity zs2 x = xorb (parity zs x) (xorb (nmem a ns && x b) (nmem b ns && x a))).
  { unfold zs2, zs1. destruct (nmem b ns), (nmem a ns); rewrite ?parity_toggle; destruct (parity zs x), (x a), (x b); auto. }
  rewrite E, !sgn_x. unfold nx. destruct (nmem a ns), (nmem b ns), (x a), (x b); unfold sgn; simpl; ring.
Qed.
Lemma pau_cnot : forall c t zs ns, c <> t -> NoDup ns ->
  let ns1 := if nmem c ns then toggle_element ns t else ns in
  let zs1 := if nmem t zs then toggle_element zs c else zs in
  NoDup zs -> forall s, gden (GCNOT c t) (pau zs ns s) = pau zs1 ns1 (gden (GCNOT c t) s).
Proof.
  intros c t zs ns Nct Nn ns1 zs1 Nz s. apply state_ext. intros x. cbn [gden]. unfold pau. f_equal.
  - f_equal. replace (upd x t (xorb (x t) (x c))) with (addx x (fun q => Nat.eqb q t && x c)).
    + rewrite parity_add. assert (K : forall l, NoDup l -> parity l (fun q => Nat.eqb q t && x c) = nmem t l && x c).
      { induction l as [|z l IH]; intros N; auto. inversion N as [|? ? N1 N2]; subst. simpl. rewrite IH by auto. rewrite (Nat.eqb_sym z t). destruct (Nat.eqb_spec t z) as [->|].
        - rewrite (proj2 (nmem_false z l)) by auto. destruct (x c); auto.
        - destruct (nmem t l), (x c); auto. }
      rewrite K by auto. unfold zs1. destruct (nmem t zs); [rewrite parity_toggle|]; destruct (parity zs x), (x c); auto.
    + apply functional_extensionality. intros q. unfold addx, upd. destruct (Nat.eqb_spec q t) as [->|]; simpl; auto. apply xorb_false_r.
  - f_equal. apply functional_extensionality. intros q. unfold nx, ns1, upd. destruct (nmem c ns) eqn:E.
    + rewrite !toggle_mem by auto. rewrite Nat.eqb_refl, E, (proj2 (Nat.eqb_neq c t) Nct). destruct (Nat.eqb_spec q t) as [->|]; [destruct (x t), (x c), (nmem t ns); auto|].
      rewrite xorb_false_r. auto.
    + destruct (Nat.eqb_spec q t) as [->|]; auto. rewrite E. destruct (x t), (x c), (nmem t ns); auto.
Qed.
Lemma nx_upd : forall ns x t b, nx ns (upd x t b) = upd (nx ns x) t (xorb b (nmem t ns)).
Proof. intros. apply functional_extensionality. intros q. unfold nx, upd. destruct (Nat.eqb_spec q t) as [->|]; auto. Qed.
Lemma parity_upd2 : forall zs x t b, NoDup zs -> parity zs (upd x t b) = xorb (parity (nremove t zs) x) (nmem t zs && b).
Proof.
  induction zs as [|z zs IH]; intros x t b N; auto. inversion N as [|? ? N1 N2]; subst. simpl. rewrite (Nat.eqb_sym t z). destruct (Nat.eqb_spec z t) as [->|Nz].
  - rewrite upd_same. cbn [orb andb]. rewrite parity_upd by auto. destruct b, (parity zs x); auto.
  - simpl. rewrite IH by auto. rewrite upd_other by auto. destruct (x z), (parity (nremove t zs) x), (nmem t zs), b; auto.
Qed.
Lemma nremove_out : forall t l, ~ In t l -> nremove t l = l.
Proof. induction l as [|a l IH]; intros H; auto. simpl. destruct (Nat.eqb_spec a t) as [->|]; [exfalso; apply H; left; auto|]. rewrite IH; auto. intros K. apply H. right; auto. Qed.
(** pushing a Hadamard gate through: Z and NOT change places *)
Lemma pau_had : forall t zs ns zs' ns', NoDup zs -> NoDup ns -> NoDup zs' -> NoDup ns' ->
  (forall q, q <> t -> nmem q ns' = nmem q ns) -> nmem t ns' = nmem t zs -> nmem t zs' = nmem t ns ->
  (forall x, parity (nremove t zs') x = parity (nremove t zs) x) ->
  exists z, unitc z /\ forall s, gden (GHAD t) (pau zs ns s) = fun x => z * pau zs' ns' (gden (GHAD t) s) x.
Proof.
  intros t zs ns zs' ns' N1 N2 N3 N4 H1 H2 H3 H4. exists (sgn (nmem t zs && nmem t ns)). split; [apply unit_sgn|]. intros s. apply state_ext. intros x.
  unfold pau at 2. rewrite !gden_h. unfold pau. rewrite !parity_upd2 by auto. rewrite !nx_upd.
  assert (E : upd (nx ns' x) t = upd (nx ns x) t).
  { apply functional_extensionality. intros b. apply functional_extensionality. intros q. unfold upd. destruct (Nat.eqb_spec q t); auto. unfold nx. rewrite H1; auto. }
  rewrite !E. assert (P : parity zs' x = xorb (parity (nremove t zs) x) (nmem t zs' && x t)).
  { rewrite <- (upd_id x t) at 1. rewrite parity_upd2 by auto. rewrite H4. auto. }
  rewrite P, H3. replace (nx ns' x t) with (xorb (x t) (nmem t zs)) by (unfold nx; rewrite H2; auto).
  rewrite !sgn_x. destruct (nmem t zs), (nmem t ns), (x t); unfold sgn; simpl; ring.
Qed.
(** pushing a phase through: Z is absorbed, NOT negates *)
Lemma pau_phase : forall k k' t p zs ns, NoDup zs ->
  let p1 := if nmem t zs then qmod2 (p + 1)%Qc else p in
  let zs1 := if nmem t zs then nremove t zs else zs in
  let p2 := if nmem t ns then qmod2 (- p1)%Qc else p1 in
  exists z, unitc z /\ forall s, gden (GZ k t p) (pau zs ns s) = fun x => z * pau zs1 ns (gden (GZ k' t p2) s) x.
Proof.
  intros k k' t p zs ns N p1 zs1 p2. exists (if nmem t ns then cexp p1 else C1). split; [destruct (nmem t ns); [apply unit_cexp|apply unit_1]|].
  intros s. apply state_ext. intros x. rewrite !gden_z. unfold pau. cbv beta.
  assert (E : (if x t then cexp p else C1) * sgn (parity zs x) = (if x t then cexp p1 else C1) * sgn (parity zs1 x)).
  { unfold p1, zs1. destruct (nmem t zs) eqn:M; auto. rewrite parity_nremove, sgn_x by auto. rewrite cexp_qmod2, cexp_add, cexp_1. destruct (x t); unfold sgn; ring. }
  transitivity ((if x t then cexp p else C1) * sgn (parity zs x) * s (nx ns x)); [ring|]. rewrite E. unfold nx at 2. unfold p2. destruct (nmem t ns) eqn:M.
  - rewrite cexp_qmod2. assert (K := cexp_opp_r p1). destruct (x t); simpl; ring [K].
  - rewrite xorb_false_r. ring.
Qed.
(** the layer as gates *)
Lemma nots_den : forall ns s, NoDup ns -> cden (map NOTg ns) s = fun x => s (nx ns x).
Proof.
  induction ns as [|n ns IH]; intros s N.
  - apply state_ext. intros x. simpl. unfold cden. simpl. f_equal. apply functional_extensionality. intros q. unfold nx. simpl. rewrite xorb_false_r. auto.
  - inversion N as [|? ? N1 N2]; subst. cbn [map]. rewrite cden_cons, IH, gden_not by auto. apply state_ext. intros x. f_equal. apply functional_extensionality. intros q.
    unfold flip, nx, upd. simpl. destruct (Nat.eqb_spec q n) as [->|]; auto. rewrite (proj2 (nmem_false n ns)) by auto. destruct (x n); auto.
Qed.
Lemma zs_den : forall zs s, cden (map Zg zs) s = fun x => sgn (parity zs x) * s x.
Proof.
  induction zs as [|z zs IH]; intros s.
  - apply state_ext. intros x. unfold cden, sgn. simpl. ring.
  - cbn [map]. rewrite cden_cons, IH, gden_zg. apply state_ext. intros x. simpl. rewrite sgn_x. ring.
Qed.
Lemma pau_gates : forall zs ns, NoDup ns -> exists z, unitc z /\ forall s, cden (map Zg zs ++ map NOTg ns) s = fun x => z * pau zs ns s x.
Proof.
  intros zs ns N. exists (sgn (parity zs (fun q => nmem q ns))). split; [apply unit_sgn|]. intros s. rewrite cden_app, zs_den, nots_den by auto. apply state_ext. intros x. unfold pau.
  change (nx ns x) with (addx x (fun q => nmem q ns)) at 1. rewrite parity_add, sgn_x. ring.
Qed.

(** ** the layer of Hadamard gates *)
Definition hl (hs : list nat) : state -> state := cden (map GHAD hs).
Lemma hl_comm : forall hs g s, wg g -> (forall q, In q hs -> onq q g = false) -> gden g (hl hs s) = hl hs (gden g s).
Proof.
  induction hs as [|h hs IH]; intros g s W H; auto. unfold hl in *. cbn [map]. rewrite !cden_cons, IH; auto; [|intros; apply H; right; auto].
  f_equal. symmetry. apply had_comm; auto. apply H. left; auto.
Qed.
Lemma on_had : forall q t, onq q (GHAD t) = Nat.eqb q t. Proof. intros. unfold onq. simpl. apply orb_false_r. Qed.
Lemma hl_out : forall hs t s, NoDup hs -> In t hs -> hl hs s = hl (nremove t hs) (gden (GHAD t) s).
Proof.
  induction hs as [|h hs IH]; intros t s N I; [destruct I|]. inversion N as [|? ? N1 N2]; subst. simpl. destruct (Nat.eqb_spec h t) as [->|Nh]; auto.
  destruct I as [I|I]; [congruence|]. unfold hl in *. cbn [map]. rewrite !cden_cons, (IH t) by auto. f_equal. apply had_comm; [exact Logic.I|]. rewrite on_had. apply Nat.eqb_neq. auto.
Qed.
Lemma hl_in : forall hs t s, NoDup hs -> In t hs -> hl hs s = gden (GHAD t) (hl (nremove t hs) s).
Proof.
  intros hs t s N I. rewrite (hl_out hs t) by auto. symmetry. apply hl_comm; [exact Logic.I|]. intros q Q. rewrite on_had. apply nremove_in in Q; auto. apply Nat.eqb_neq. tauto.
Qed.
Lemma hl_toggle : forall hs t s, NoDup hs -> gden (GHAD t) (hl hs s) = hl (toggle_element hs t) s.
Proof.
  intros hs t s N. unfold toggle_element. destruct (nmem t hs) eqn:E.
  - rewrite (hl_in hs t) by (auto; apply nmem_in; auto). apply had_had.
  - unfold hl. rewrite map_app, cden_app. reflexivity.
Qed.
Lemma hl_scale : forall hs z s, hl hs (fun x => z * s x) = fun x => z * hl hs s x. Proof. intros. apply cden_scale. Qed.
Lemma on2 : forall q c t, onq q (GCNOT c t) = Nat.eqb q c || Nat.eqb q t. Proof. intros. unfold onq. simpl. rewrite orb_false_r. auto. Qed.
Lemma on2z : forall q c t, onq q (GCZ c t) = Nat.eqb q c || Nat.eqb q t. Proof. intros. unfold onq. simpl. rewrite orb_false_r. auto. Qed.
Lemma off2 : forall q c t, q <> c -> q <> t -> Nat.eqb q c || Nat.eqb q t = false.
Proof. intros. rewrite !(proj2 (Nat.eqb_neq _ _)); auto. Qed.
Lemma hl_cz : forall hs a b s, NoDup hs -> a <> b -> gden (GCZ a b) (hl hs s) =
  if nmem a hs then if nmem b hs then gden (GCZ a b) (hl hs s) else hl hs (gden (GCNOT b a) s)
  else if nmem b hs then hl hs (gden (GCNOT a b) s) else hl hs (gden (GCZ a b) s).
Proof.
  intros hs a b s N Nab.
  assert (K : forall a b, a <> b -> nmem a hs = false -> nmem b hs = true -> gden (GCZ a b) (hl hs s) = hl hs (gden (GCNOT a b) s)).
  { clear a b Nab. intros a b Nab A B. apply nmem_in in B. apply nmem_false in A. rewrite !(hl_in hs b) by auto. rewrite cz_had by auto. f_equal. apply hl_comm; [simpl; auto|].
    intros q Q. apply nremove_in in Q; auto. rewrite on2. apply off2; [intros ->; tauto|tauto]. }
  destruct (nmem a hs) eqn:A, (nmem b hs) eqn:B; auto.
  - rewrite cz_sym. auto.
  - apply nmem_false in A. apply nmem_false in B. apply hl_comm; [simpl; auto|]. intros q Q. rewrite on2z. apply off2; intros ->; auto.
Qed.
Lemma hl_cnot : forall hs c t s, NoDup hs -> c <> t -> gden (GCNOT c t) (hl hs s) =
  if nmem c hs then if nmem t hs then hl hs (gden (GCNOT t c) s) else gden (GCNOT c t) (hl hs s)
  else if nmem t hs then hl hs (gden (GCZ c t) s) else hl hs (gden (GCNOT c t) s).
Proof.
  intros hs c t s N Nct. destruct (nmem c hs) eqn:A, (nmem t hs) eqn:B; auto.
  - apply nmem_in in A. apply nmem_in in B. assert (N' := nremove_nodup c hs N). assert (B' : In t (nremove c hs)) by (apply nremove_in; auto).
    rewrite !(hl_in hs c), !(hl_in (nremove c hs) t) by auto. rewrite cnot_had2 by auto. do 2 f_equal. apply hl_comm; [simpl; auto|].
    intros q Q. apply nremove_in in Q; auto. destruct Q as [Q Q1]. apply nremove_in in Q; auto. rewrite on2. apply off2; tauto.
  - apply nmem_in in B. apply nmem_false in A. rewrite !(hl_in hs t) by auto. rewrite cnot_had by auto. f_equal. apply hl_comm; [simpl; auto|].
    intros q Q. apply nremove_in in Q; auto. rewrite on2z. apply off2; [intros ->; tauto|tauto].
  - apply nmem_false in A. apply nmem_false in B. apply hl_comm; [simpl; auto|]. intros q Q. rewrite on2. apply off2; intros ->; auto.
Qed.

(** ** renaming qubits *)
Definition rn (pm : nat -> nat) (s : state) : state := fun x => s (fun q => x (pm q)).
Definition inj (pm : nat -> nat) : Prop := forall a b, pm a = pm b -> a = b.
Lemma upd_rn : forall pm x t b, inj pm -> (fun q => upd x (pm t) b (pm q)) = upd (fun q => x (pm q)) t b.
Proof. intros pm x t b J. apply functional_extensionality. intros q. unfold upd. destruct (Nat.eqb_spec (pm q) (pm t)) as [E|E], (Nat.eqb_spec q t); auto; [apply J in E; congruence|congruence]. Qed.
Lemma rn_op1 : forall pm m t s, inj pm -> op1 m (pm t) (rn pm s) = rn pm (op1 m t s).
Proof. intros pm m t s J. apply state_ext. intros x. unfold op1, rn. rewrite !upd_rn by auto. reflexivity. Qed.
Lemma rn_cnot : forall pm c t s, inj pm -> gden (GCNOT (pm c) (pm t)) (rn pm s) = rn pm (gden (GCNOT c t) s).
Proof. intros pm c t s J. apply state_ext. intros x. cbn [gden]. unfold rn. rewrite upd_rn by auto. reflexivity. Qed.
Lemma rn_cz : forall pm c t s, inj pm -> gden (GCZ (pm c) (pm t)) (rn pm s) = rn pm (gden (GCZ c t) s).
Proof. intros. apply state_ext. intros x. reflexivity. Qed.

(** Arithmetic in Z[w], w = exp(i pi/4), used to check the magic state
    decompositions: products of spider phases and wires over bits, and their sums. *)
From Coq Require Import Reals ZArith QArith Qcanon List Bool Arith Lia.
From Verif Require Import CNum Base ScalarModel ScalarProofs GraphModel GraphSem SumLemmas GraphAlgProofs MagicModel.
Import ListNotations.
Local Open Scope nat_scope.

Definition zw : Type := (Z * Z * Z * Z)%type.
Definition ev (z : zw) : C := match z with (a, b, c, d) => (cz a + cz b * w8 + cz c * Ci + cz d * (Ci * w8))%C end.
Definition zadd (x y : zw) : zw := match x, y with (a, b, c, d), (a', b', c', d') => (a + a', b + b', c + c', d + d')%Z end.
Definition zmul (x y : zw) : zw := match x, y with (a, b, c, d), (a', b', c', d') =>
  (a * a' - b * d' - c * c' - d * b', a * b' + b * a' - c * d' - d * c', a * c' + b * b' + c * a' - d * d', a * d' + b * c' + c * b' + d * a')%Z end.
Definition z0 : zw := (0, 0, 0, 0)%Z.
Definition z1 : zw := (1, 0, 0, 0)%Z.
Definition zm1 : zw := (-1, 0, 0, 0)%Z.
Definition zw1 : zw := (0, 1, 0, 0)%Z.
Definition zr2 : zw := (0, 1, 0, -1)%Z.

Lemma cz_add : forall a b, cz (a + b) = (cz a + cz b)%C. Proof. intros. unfold cz. rewrite plus_IZR. apply RtoC_plus. Qed.
Lemma cz_mul : forall a b, cz (a * b) = (cz a * cz b)%C. Proof. intros. unfold cz. rewrite mult_IZR. apply RtoC_mult. Qed.
Lemma cz_sub : forall a b, cz (a - b) = (cz a - cz b)%C. Proof. intros. unfold cz. rewrite minus_IZR. cring. Qed.
Lemma cz_opp : forall a, cz (- a) = (- cz a)%C. Proof. intros. unfold cz. rewrite opp_IZR. cring. Qed.
Lemma ev_add : forall x y, ev (zadd x y) = (ev x + ev y)%C.
Proof. intros [[[a b] c] d] [[[a' b'] c'] d']. unfold zadd, ev. rewrite !cz_add. ring. Qed.
Lemma ev_mul : forall x y, ev (zmul x y) = (ev x * ev y)%C.
Proof.
  intros [[[a b] c] d] [[[a' b'] c'] d']. unfold zmul, ev. rewrite !cz_sub, !cz_add, !cz_mul. rewrite <- w8_sq. pose proof Ci_sq as I. rewrite <- w8_sq in I.
  generalize (cz a) (cz b) (cz c) (cz d) (cz a') (cz b') (cz c') (cz d'). generalize dependent w8. intros w I A B C D A' B' C' D'.
  rename I into W4.
  assert (X : forall P Q Q' : CNum.C, (P = Q + Q' * (w * w * (w * w) + C1))%C -> P = Q) by (intros P Q Q' ->; rewrite W4; ring).
  symmetry. apply (X _ _ (B * D' + C * C' + D * B' + (C * D' + D * C') * w + D * D' * (w * w))%C). ring.
Qed.
Lemma ev_0 : ev z0 = C0. Proof. unfold ev, z0, cz. cring. Qed.
Lemma ev_1 : ev z1 = C1. Proof. unfold ev, z1, cz. cring. Qed.
Lemma ev_m1 : ev zm1 = (- C1)%C. Proof. unfold ev, zm1, cz. cring. Qed.
Lemma ev_w : ev zw1 = w8. Proof. unfold ev, zw1. replace (cz 0) with C0 by reflexivity. replace (cz 1) with C1 by reflexivity. ring. Qed.
Lemma ev_r2 : ev zr2 = sq2p 1.
Proof.
  unfold ev, zr2. replace (cz 0) with C0 by reflexivity. replace (cz 1) with C1 by reflexivity. replace (cz (-1)) with (- C1)%C by (unfold cz; cring).
  unfold w8. rewrite cexp_quarter. transitivity ((C1 + C1) * sq2p (-1))%C.
  - transitivity (sq2p (-1) * (C1 - Ci * Ci))%C; [ring|]. rewrite Ci_sq. unfold Copp. cring.
  - rewrite <- sq2p_2, <- sq2p_add. reflexivity.
Qed.

Fixpoint zpow (z : zw) (n : nat) : zw := match n with O => z1 | S n => zmul z (zpow z n) end.
(** w to an integer power *)
Definition wpow (k : Z) : zw := zpow zw1 (Z.to_nat (k mod 8)).
Lemma ev_wpown : forall n, ev (zpow zw1 n) = cexp (frac (Z.of_nat n) 4).
Proof.
  induction n as [|n IH]; [cbn [zpow]; rewrite ev_1; symmetry; apply cexp_0|].
  cbn [zpow]. rewrite ev_mul, IH, ev_w. unfold w8. rewrite <- cexp_add, frac_add. do 2 f_equal. lia.
Qed.
Lemma frac_8 : forall n, frac (8 * n) 4 = Qcz (2 * n).
Proof. intros. apply Qc_is_canon. rewrite this_frac, this_Qcz. unfold Qeq, inject_Z. cbn [Qnum Qden]. lia. Qed.
Lemma ev_wpow : forall k, ev (wpow k) = cexp (frac k 4).
Proof.
  intros. unfold wpow. rewrite ev_wpown. rewrite Z2Nat.id by (apply Z.mod_pos_bound; lia).
  rewrite (Z.div_mod k 8) at 2 by lia. rewrite <- frac_add, cexp_add, frac_8, cexp_even. ring.
Qed.
Lemma ev_r2pow : forall n, ev (zpow zr2 n) = sq2p (Z.of_nat n).
Proof.
  induction n as [|n IH]; [cbn [zpow]; rewrite ev_1; symmetry; apply sq2p_0|]. cbn [zpow]. rewrite ev_mul, IH, ev_r2, <- sq2p_add. f_equal. lia.
Qed.

(** ** Weights over numbered spiders *)
(** a phase of k quarters of pi on spider i, or a wire between i and j *)
Inductive fac := FP (k : Z) (i : nat) | FE (e : etype) (i j : nat).
Definition fval (f : fac) (y : assignment) : zw :=
  match f with
  | FP k i => if y i then wpow k else z1
  | FE SIMPLE i j => if Bool.eqb (y i) (y j) then z1 else z0
  | FE HADAMARD i j => if y i && y j then zm1 else z1
  end.
Fixpoint pden (l : list fac) (y : assignment) : zw := match l with [] => z1 | f :: l => zmul (fval f y) (pden l y) end.
Definition fin (n : nat) (f : fac) : Prop := match f with FP _ i => i < n | FE _ i j => i < n /\ j < n /\ i <> j end.
Lemma fval_agree : forall n f y y', fin n f -> (forall i, i < n -> y i = y' i) -> fval f y = fval f y'.
Proof. intros n [k i|[|] i j] y y' F H; cbn in *; rewrite ?(H i), ?(H j); tauto. Qed.
Lemma pden_agree : forall n l y y', Forall (fin n) l -> (forall i, i < n -> y i = y' i) -> pden l y = pden l y'.
Proof. induction l as [|f l IH]; intros y y' F H; auto. inversion_clear F. cbn [pden]. rewrite (fval_agree n f y y'), (IH y y'); auto. Qed.
Lemma ev_pden_app : forall l l' y, ev (pden (l ++ l') y) = (ev (pden l y) * ev (pden l' y))%C.
Proof. induction l as [|f l IH]; intros l' y; cbn [pden app]; [rewrite ev_1; ring|]. rewrite !ev_mul, IH. ring. Qed.

(** sums over the bits of the spiders numbered from [length env] on *)
Definition bget (env : list bool) (i : nat) : bool := nth i env false.
Fixpoint zsum (n : nat) (l : list fac) (env : list bool) : zw :=
  match n with O => pden l (bget env) | S n => zadd (zsum n l (env ++ [false])) (zsum n l (env ++ [true])) end.
Lemma sumv_zsum : forall l n m b, Forall (fin (m + n)) l ->
  sumv (seq m n) (fun y => ev (pden l y)) b = ev (zsum n l (map b (seq 0 m))).
Proof.
  intros l. induction n as [|n IH]; intros m b F; cbn [seq sumv zsum].
  - f_equal. apply (pden_agree (m + 0)); auto. intros i Hi. unfold bget. rewrite Nat.add_0_r in Hi.
    rewrite (nth_indep _ false (b 0)) by (rewrite map_length, seq_length; lia). rewrite map_nth, seq_nth by lia. reflexivity.
  - assert (E : forall v, map (upd b m v) (seq 0 (S m)) = map b (seq 0 m) ++ [v]).
    { intros v. rewrite seq_S, map_app. cbn [map]. f_equal; [apply map_ext_in; intros i Hi; apply in_seq in Hi; apply upd_other; lia|]. rewrite upd_same. auto. }
    rewrite !IH, !E, ev_add by (replace (S m + n) with (m + S n) by lia; auto). reflexivity.
Qed.
Fixpoint envs (n : nat) : list (list bool) := match n with O => [[]] | S n => map (cons false) (envs n) ++ map (cons true) (envs n) end.
Lemma in_envs : forall n l, length l = n -> In l (envs n).
Proof.
  induction n as [|n IH]; intros [|a l] H; try discriminate; [left; auto|]. cbn [envs]. apply in_or_app. injection H as H.
  destruct a; [right|left]; apply in_map, IH; auto.
Qed.

(** one term of a decomposition: a constant, a power of sqrt 2, the number of new
    spiders and the weights *)
Definition term : Type := (zw * Z * nat * list fac)%type.
Definition tval (t : term) (env : list bool) : zw := match t with (k, p, n, l) => zmul (zmul k (zpow zr2 (Z.to_nat (p + 9)))) (zsum n l env) end.
Definition tsum (ts : list term) (env : list bool) : zw := fold_right (fun t a => zadd (tval t env) a) z0 ts.
Definition zeqb (x y : zw) : bool := match x, y with (a, b, c, d), (a', b', c', d') => Z.eqb a a' && Z.eqb b b' && Z.eqb c c' && Z.eqb d d' end.
Lemma zeqb_eq : forall x y, zeqb x y = true -> x = y.
Proof. intros [[[a b] c] d] [[[a' b'] c'] d'] H. unfold zeqb in H. rewrite !andb_true_iff, !Z.eqb_eq in H. destruct H as [[[-> ->] ->] ->]. auto. Qed.
(** the terms add up to one for all bits of the m replaced spiders *)
Definition complete (m : nat) (ts : list term) : bool :=
  forallb (fun t => match t with (k, p, n, l) => Z.leb (-9) p end) ts && forallb (fun env => zeqb (tsum ts env) (zpow zr2 9)) (envs m).
Definition tden (t : term) (env : list bool) : C := match t with (k, p, n, l) => (ev k * sq2p p * ev (zsum n l env))%C end.
Definition csum (l : list C) : C := fold_right Cplus C0 l.
Lemma complete_sum : forall m ts, complete m ts = true -> forall env, length env = m -> csum (map (fun t => tden t env) ts) = C1.
Proof.
  intros m ts H env L. unfold complete in H. apply andb_true_iff in H. destruct H as [P H]. rewrite forallb_forall in P, H.
  specialize (H _ (in_envs _ _ L)). apply zeqb_eq in H.
  assert (T : ev (tsum ts env) = (sq2p 9 * csum (map (fun t => tden t env) ts))%C).
  { clear H. induction ts as [|t ts IH]; [unfold tsum, csum; cbn [fold_right map]; rewrite ev_0; ring|]. cbn [tsum fold_right map csum]. rewrite ev_add. unfold tsum, csum in IH. rewrite IH by (intros; apply P; right; auto).
    assert (X := P t (or_introl eq_refl)). destruct t as [[[k p] n] l]. apply Z.leb_le in X. unfold tval, tden. rewrite !ev_mul, ev_r2pow, Z2Nat.id by lia. rewrite sq2p_add. unfold csum. ring. }
  rewrite H, ev_r2pow in T. apply (Cmult_cancel_l (sq2p 9)); [apply sq2p_neq0|]. rewrite <- T. change (Z.of_nat 9) with 9%Z. ring.
Qed.

(** ** The decompositions *)
Definition zB60 : zw := (-16, 12, 0, -12)%Z.
Definition zB66 : zw := (96, -68, 0, 68)%Z.
Definition zE6 : zw := (10, -7, 0, 7)%Z.
Definition zO6 : zw := (-14, 10, 0, -10)%Z.
Definition zK6 : zw := (7, -5, 0, 5)%Z.
Definition zPHI : zw := (10, -7, 0, 7)%Z.
(** (2+2i) times it is -(7 + 5 sqrt 2), so sqrt 2 cubed times w times it is *)
Definition zG : zw := zmul (-7, -5, 0, 5)%Z (wpow (-1)).
Definition phs (ks : list Z) (is_ : list nat) : list fac := flat_map (fun i => map (fun k => FP k i) ks) is_.
Definition f_phi (vs : list nat) : list fac :=
  match vs with
  | [v1; v2; v3; v4; v5; v6] =>
    [FP 4 6; FP (-1) v6; FE SIMPLE v6 6;
     FP (-1) v1; FP 0 7; FE HADAMARD 6 7; FE HADAMARD v1 7;
     FP (-1) v2; FP 0 8; FE HADAMARD 6 8; FE HADAMARD v2 8;
     FP (-1) v3; FP 0 9; FE HADAMARD 6 9; FE HADAMARD v3 9;
     FP (-1) v4; FP 0 10; FE HADAMARD 6 10; FE HADAMARD v4 10;
     FP (-1) v5; FP 0 11; FE HADAMARD 6 11; FE HADAMARD v5 11;
     FE HADAMARD 7 9; FE HADAMARD 7 10; FE HADAMARD 8 10; FE HADAMARD 8 11; FE HADAMARD 9 11]
  | _ => [] end.
Definition glob (t : term) : term := match t with (k, p, n, l) => (zmul k zG, (p - 3)%Z, n, l) end.
Definition t_B60 : term := (zB60, (-6)%Z, 0, phs [-1]%Z (seq 0 6)).
Definition t_B66 : term := (zmul zB66 (wpow 4), (-6)%Z, 0, phs [-1; 4]%Z (seq 0 6)).
Definition t_E6 : term := (zmul zE6 (wpow 2), (4 - 6)%Z, 1, phs [-1; 2]%Z (seq 0 6) ++ [FP 4 6] ++ map (fun i => FE HADAMARD i 6) (seq 0 6)).
Definition t_O6 : term := (zmul zO6 (wpow 2), (4 - 6)%Z, 1, phs [-1; 2]%Z (seq 0 6) ++ [FP 0 6] ++ map (fun i => FE HADAMARD i 6) (seq 0 6)).
Definition t_K6 : term := (zmul zK6 (wpow 1), 5%Z, 1, phs [-1]%Z (seq 0 6) ++ [FP 6 6] ++ map (fun i => FE SIMPLE i 6) (seq 0 6)).
Definition t_phi1 : term := (zmul zPHI (wpow 6), (9 - 15)%Z, 6, f_phi [0; 1; 2; 3; 4; 5]).
Definition t_phi2 : term := (zmul zPHI (wpow 6), (9 - 15)%Z, 6, f_phi [0; 1; 3; 4; 5; 2]).
Definition t_2_S : term := (z1, 0%Z, 1, [FP 2 2; FE SIMPLE 0 2; FE SIMPLE 1 2; FP (-1) 0; FP (-1) 1]).
Definition t_2_N : term := (wpow 1, (-2)%Z, 1, [FP 4 2; FE HADAMARD 0 2; FE HADAMARD 1 2; FP (-1) 0; FP (-1) 1]).
Definition t_1_0 : term := (z1, (-1 - 1)%Z, 1, [FP 0 1; FE HADAMARD 0 1; FP (-1) 0]).
Definition t_1_1 : term := (wpow 1, (-1 - 1)%Z, 1, [FP 4 1; FE HADAMARD 0 1; FP (-1) 0]).
Definition terms6 : list term := map glob [t_B60; t_B66; t_E6; t_O6; t_K6; t_phi1; t_phi2].
Definition terms2 : list term := [t_2_S; t_2_N].
Definition terms1 : list term := [t_1_0; t_1_1].
Lemma complete6 : complete 6 terms6 = true. Proof. vm_compute. reflexivity. Qed.
Lemma complete2 : complete 2 terms2 = true. Proof. vm_compute. reflexivity. Qed.
Lemma complete1 : complete 1 terms1 = true. Proof. vm_compute. reflexivity. Qed.

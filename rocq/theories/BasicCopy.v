(** basicrules.copy_X, check_copy_Z and copy_Z *)
From Coq Require Import Reals ZArith QArith Qcanon List Bool Arith Lia Permutation.
From Verif Require Import CNum Base ScalarModel ScalarProofs GraphModel GraphSem SumLemmas GraphProofs GraphOps
  RulesModel RuleLemmas SpiderProofs IdProofs SimpModel ColorProofs InvProofs BasicRulesModel BasicColor BasicFuse BasicPi StrongComp.
Import ListNotations.
Open Scope nat_scope.
Open Scope C_scope.

(** a Pauli spider of colour t with one neighbour, of the other colour, on a plain wire *)
Definition copyable (t : vtype) (g : graph) (v : nat) : bool :=
  match neighbors g v with
  | [w] => (vtype_eqb (vty g v) t && is_pauli (phase g v) && vtype_eqb (vty g w) (toggle_vertex t)
            && match edge_type g v w with Some SIMPLE => true | _ => false end)%bool
  | _ => false
  end.
(** the neighbour's phase is Pauli as well, so that strong_comp does something *)
Definition copies (t : vtype) (g : graph) (v : nat) : bool :=
  match neighbors g v with [w] => copyable t g v && is_pauli (phase g w) | _ => false end.

Lemma check_copy_X_ok : forall v g, wfg g -> In v (vertices g) -> check_copy_X v g = Ok (copyable XSP g v).
Proof.
  intros v g W Hv. unfold check_copy_X, copyable. rewrite neighbors_r_ok, vtype_r_ok by auto. cbn [bind].
  destruct (neighbors g v) as [|w [|u l]] eqn:N; cbn [length Nat.eqb andb negb]; auto.
  assert (Hw : In w (vertices g)) by (apply (neighbors_in g v); auto; rewrite N; left; auto).
  destruct (vtype_eqb (vty g v) XSP && is_pauli (phase g v))%bool; cbn [negb andb]; auto. rewrite vtype_r_ok by auto. reflexivity.
Qed.

Theorem copy_X_ok : forall v g, zxok g -> bdeg g -> In v (vertices g) ->
  exists g', copy_X v g = Ok (copyable XSP g v, g') /\ zxok g' /\ bdeg g' /\ same_map g g' /\ same_bnd g g' /\
  if copies XSP g v then exists w N, neighbors g v = [w] /\ vertices g' = keep [v; w] g ++ N /\ (length N + 1 = length (neighbors g w))%nat
  else g' = g.
Proof.
  intros v g ZX BD Hv. assert (W := zx_wf g ZX). unfold copy_X. rewrite check_copy_X_ok by auto. cbn [bind]. unfold copies, copyable.
  destruct (neighbors g v) as [|w [|u l]] eqn:N; cbn [negb];
    try (exists g; split; auto; split; auto; split; auto; split; [repeat split; auto|]; split; [intros x; tauto|auto]; fail).
  match goal with |- context [if negb ?b then _ else _] => destruct b eqn:CB end; cbn [negb andb];
    [|exists g; split; auto; split; auto; split; auto; split; [repeat split; auto|]; split; [intros x; tauto|auto]].
  rewrite neighbors_r_ok by auto. cbn [bind]. rewrite N.
  assert (Hw : In w (vertices g)) by (apply (neighbors_in g v); auto; rewrite N; left; auto).
  destruct (strong_comp_ok v w g ZX BD Hv Hw) as (g' & E & Z' & B' & M' & SB & C). rewrite E. cbn [bind snd].
  exists g'. split; auto. split; auto. split; auto. split; auto. split; auto.
  rewrite !andb_true_iff in CB. destruct CB as [[[T1 P1] T2] EE].
  assert (CC : composable g v w = is_pauli (phase g w)).
  { unfold composable. change (toggle_vertex XSP) with ZSP in T2. rewrite T1, T2, P1, EE. cbn [andb orb]. rewrite andb_true_r. reflexivity. }
  rewrite CC in C. destruct (is_pauli (phase g w)); [|exact C]. destruct C as (NN & C1' & C2'). exists w, NN. split; auto. split; auto.
  rewrite N in C2'. cbn [length] in C2'. lia.
Qed.

Lemma bnd_perm : forall g g', wfg g -> wfg g' -> same_bnd g g' -> Permutation (bnd g') (bnd g).
Proof.
  intros g g' W W' SB. apply NoDup_Permutation; try (apply NoDup_filter; apply wf_nd; auto). intros u. unfold bnd. rewrite !filter_In. apply SB.
Qed.
Lemma toggle_copyable : forall g g1 v, (forall u w, edge_type g1 u w = edge_type g u w) -> wfg g -> neighbors g1 v = neighbors g v -> In v (vertices g) ->
  (forall u, In u (vertices g) -> vty g1 u = toggle_vertex (vty g u)) -> (forall u, phase g1 u = phase g u) ->
  copyable XSP g1 v = copyable ZSP g v.
Proof.
  intros g g1 v ET W NB Hv T P. unfold copyable. rewrite NB. destruct (neighbors g v) as [|w [|u l]] eqn:N; auto.
  assert (Hw : In w (vertices g)) by (apply (neighbors_in g v); auto; rewrite N; left; auto).
  rewrite ET, !T, P by auto. destruct (vty g v), (vty g w); reflexivity.
Qed.
Lemma sem_twice : forall g g1 g2 g3, (forall x, sem g1 x = had_all (bnd g) (sem g) x) -> (forall x, sem g2 x = sem g1 x) ->
  (forall x, sem g3 x = had_all (bnd g2) (sem g2) x) -> Permutation (bnd g2) (bnd g) -> forall x, sem g3 x = sem g x.
Proof.
  intros g g1 g2 g3 H1 H2 H3 P x. rewrite H3, (had_all_perm _ _ _ _ P). rewrite (had_all_ext _ _ (had_all (bnd g) (sem g))); [apply had_all_invol|].
  intros y. rewrite H2, H1. reflexivity.
Qed.
Lemma singleton_nbrs : forall g g1 v, wfg g -> wfg g1 -> (forall u w, edge_type g1 u w = edge_type g u w) -> Permutation (neighbors g1 v) (neighbors g v).
Proof.
  intros g g1 v W W1 E. apply NoDup_Permutation; try (apply neighbors_nd; auto). intros u. rewrite !neighbors_spec, E. tauto.
Qed.
Lemma toggle_copyable' : forall g g1 v, (forall u w, edge_type g1 u w = edge_type g u w) -> wfg g -> wfg g1 -> In v (vertices g) ->
  (forall u, In u (vertices g) -> vty g1 u = toggle_vertex (vty g u)) -> (forall u, phase g1 u = phase g u) ->
  copyable XSP g1 v = copyable ZSP g v.
Proof.
  intros g g1 v ET W W1 Hv T P. pose proof (singleton_nbrs g g1 v W W1 ET) as PN.
  destruct (neighbors g v) as [|w [|u l]] eqn:N.
  - apply Permutation_sym, Permutation_nil in PN. unfold copyable. rewrite N, PN. reflexivity.
  - apply Permutation_sym, Permutation_length_1_inv in PN. apply toggle_copyable; auto. congruence.
  - apply Permutation_length in PN. unfold copyable. rewrite N. destruct (neighbors g1 v) as [|a [|b l']]; auto; discriminate.
Qed.

Theorem check_copy_Z_ok : forall v g, zxok g -> bdeg g -> In v (vertices g) ->
  exists g', check_copy_Z v g = Ok (copyable ZSP g v, g') /\ zxok g' /\ bdeg g' /\ same_map g g' /\
    vertices g' = vertices g /\ (forall u, In u (vertices g) -> vty g' u = vty g u) /\ (forall u w, edge_type g' u w = edge_type g u w) /\
    (forall u, phase g' u = phase g u) /\ gscalar g' = gscalar g.
Proof.
  intros v g ZX BD Hv. unfold check_copy_Z.
  destruct (color_diagram_ok g ZX BD) as [g1 [E1 [Z1 [B1 [V1 [I1 [O1 [P1 [S1 [T1 [ET1 M1]]]]]]]]]]]. rewrite E1. cbn [bind].
  rewrite check_copy_X_ok by (rewrite ?V1; auto; apply Z1). cbn [bind].
  destruct (color_diagram_ok g1 Z1 B1) as [g3 [E3 [Z3 [B3 [V3 [I3 [O3 [P3 [S3 [T3 [ET3 M3]]]]]]]]]]]. rewrite E3. cbn [bind].
  exists g3. split.
  { rewrite (toggle_copyable' g g1 v); auto; [apply ZX|apply Z1|]. intros u. unfold phase. rewrite P1. auto. }
  split; auto. split; auto. split.
  { split; [congruence|]. split; [congruence|]. intros b. apply (sem_twice g g1 g1 g3); auto.
    rewrite (bnd_same g g1); auto. intros u Hu. unfold isB. rewrite T1 by auto. apply toggle_isB. }
  split; [congruence|]. split; [|split; [|split; [|congruence]]].
  - intros u Hu. rewrite T3, T1 by (rewrite ?V1; auto). destruct (vty g u); reflexivity.
  - intros u w. rewrite ET3, ET1. auto.
  - intros u. unfold phase. rewrite P3, P1. auto.
Qed.

Theorem copy_Z_ok : forall v g, zxok g -> bdeg g -> In v (vertices g) ->
  exists g', copy_Z v g = Ok (copyable ZSP g v, g') /\ zxok g' /\ bdeg g' /\ same_map g g' /\ same_bnd g g'.
Proof.
  intros v g ZX BD Hv. unfold copy_Z.
  destruct (color_diagram_ok g ZX BD) as [g1 [E1 [Z1 [B1 [V1 [I1 [O1 [P1 [S1 [T1 [ET1 M1]]]]]]]]]]]. rewrite E1. cbn [bind].
  destruct (copy_X_ok v g1 Z1 B1) as (g2 & E2 & Z2 & B2 & (I2 & O2 & M2) & SB & _); [rewrite V1; auto|]. rewrite E2. cbn [bind].
  destruct (color_diagram_ok g2 Z2 B2) as [g3 [E3 [Z3 [B3 [V3 [I3 [O3 [P3 [S3 [T3 [ET3 M3]]]]]]]]]]]. rewrite E3. cbn [bind].
  exists g3. split.
  { rewrite (toggle_copyable' g g1 v); auto; [apply ZX|apply Z1|]. intros u. unfold phase. rewrite P1. auto. }
  assert (SB1 : same_bnd g g1).
  { intros u. rewrite V1. split; intros [A B]; split; auto; unfold isB in *; rewrite T1 in * by auto; destruct (vty g u); auto. }
  assert (SB3 : same_bnd g2 g3).
  { intros u. rewrite V3. split; intros [A B]; split; auto; unfold isB in *; rewrite T3 in * by auto; destruct (vty g2 u); auto. }
  split; auto. split; auto. split.
  { split; [congruence|]. split; [congruence|]. apply (sem_twice g g1 g2 g3); auto.
    apply bnd_perm; [apply ZX|apply Z2|]. intros u. rewrite (SB u). apply SB1. }
  intros u. rewrite (SB3 u), (SB u). apply SB1.
Qed.

(** congruences.py: the random moves, and the cases where the map is lost. *)
From Coq Require Import Reals ZArith QArith Qcanon List Bool Arith Lia Lra Permutation Ring.
From Verif Require Import CNum Base ScalarModel ScalarProofs GraphModel GraphSem SumLemmas GraphProofs GraphOps RulesModel RuleLemmas
  SpiderProofs IsoProofs IdProofs LcompProofs PivotProofs PivotMatch GrowProofs StoreProofs InvProofs BfixProofs TotalProofs ZXFacts GraphAlgProofs RunEx IsoExact RedFacts Decide.
From Verif Require Import CongModel CongProofs CongPivot.
Import ListNotations.
Open Scope nat_scope.

Lemma gok_of : forall g, zinv g -> glike g -> gok g.
Proof. intros g Z GL. split; [apply (zx_wf g), Z|]. split; [apply (zx_noloop g), Z|auto]. Qed.

(** a spider that apply_rand_lc may choose: a Z spider with two neighbours or more, none of them a boundary *)
Definition lc_cand (g : graph) (v : nat) : Prop := In v (vertices g) /\ vty g v = ZSP /\ 2 <= length (neighbors g v) /\ forall n, edge_type g v n <> None -> vty g n <> BOUNDARY.
Lemma lc_cand_iff : forall g v, In v (filter (is_lc_vertex g) (vertices g)) <-> lc_cand g v.
Proof.
  intros g v. rewrite filter_In. unfold is_lc_vertex, lc_cand. destruct (Nat.ltb_spec (length (neighbors g v)) 2) as [L|L]; cbn [orb].
  - split; [intros [_ X]; discriminate|intros [_ [_ [X _]]]; lia].
  - destruct (vtype_eqb (vty g v) ZSP) eqn:T; cbn [negb].
    + apply vtype_eqb_eq in T. rewrite forallb_forall. split.
      * intros [A B]. split; auto. split; auto. split; auto. intros n E X. apply neighbors_spec in E. specialize (B n E). rewrite X in B. discriminate.
      * intros [A [_ [_ B]]]. split; auto. intros n Hn. apply neighbors_spec in Hn. specialize (B n Hn). destruct (vty g n); auto; congruence.
    + split; [intros [_ X]; discriminate|]. intros [_ [X _]]. rewrite X in T. discriminate.
Qed.
Theorem rand_lc_ok : forall g, gok g -> (exists r, rand_lc g r) /\ forall r, rand_lc g r ->
  (r = Err ZeroDivisionError /\ forall v, ~ lc_cand g v) \/
  ((exists v, lc_cand g v) /\ exists g', r = Ok g' /\ gok g' /\ ginputs g' = ginputs g /\ goutputs g' = goutputs g /\ forall b, sem g' b = sem g b).
Proof.
  intros g G. split.
  - unfold rand_lc. destruct (filter (is_lc_vertex g) (vertices g)) as [|v l]; [eauto|]. exists (lc_cong2 v g). right. exists v. simpl. auto.
  - intros r [[E ->]|[v [Hv ->]]].
    + left. split; auto. intros v Hv. apply lc_cand_iff in Hv. rewrite E in Hv. destruct Hv.
    + right. apply lc_cand_iff in Hv. split; [eauto|]. destruct Hv as [Iv [Tv _]]. destruct (lc_cong2_ok v g G Iv Tv) as [g' H]. exists g'. auto.
Qed.
(** an edge between two Z spiders *)
Definition pv_cand (g : graph) (u v : nat) : Prop := edge_type g u v <> None /\ vty g u = ZSP /\ vty g v = ZSP.
Theorem rand_pivot_ok : forall so g, orders so -> gok g -> (exists r, rand_pivot so g r) /\ forall r, rand_pivot so g r ->
  (r = Err ZeroDivisionError /\ forall u v, ~ pv_cand g u v) \/ ((exists u v, pv_cand g u v) /\ exists g', r = Ok g' /\ gok g' /\ same_upto g g').
Proof.
  intros so g SO G. assert (W := proj1 G). split.
  - unfold rand_pivot. destruct (filter (is_pivot_edge g) (edges g)) as [|e l]; [eauto|]. exists (pivot_cong so (fst e) (snd e) g). right. exists e. simpl. auto.
  - intros r [[E ->]|[[u v] [He ->]]].
    + left. split; auto. assert (F : forall u v, u < v -> ~ pv_cand g u v).
      { intros u v L [A [B C']]. assert (X : In (u, v) (filter (is_pivot_edge g) (edges g))) by (apply filter_In; split; [apply in_edges; auto|unfold is_pivot_edge; cbn [fst snd]; rewrite B, C'; auto]). rewrite E in X. destruct X. }
      intros u v P. destruct (Nat.lt_total u v) as [L|[->|L]]; [apply (F u v); auto|destruct P as [P _]; apply P, G|]. apply (F v u); auto. destruct P as [A [B C']]. split; auto. rewrite (wf_sym g W). auto.
    + right. apply filter_In in He. destruct He as [He Z]. apply in_edges in He; auto. unfold is_pivot_edge in Z. cbn [fst snd] in *. apply andb_true_iff in Z. rewrite !vtype_eqb_eq in Z. destruct Z as [Z1 Z2].
      assert (E : edge_type g u v <> None) by apply He. split; [exists u, v; split; auto|]. apply pivot_cong_ok; auto.
Qed.

(** ** Where the map is lost *)
(** an S gate: a spider between two boundaries *)
Definition ex_lcb : graph := mkgraph [(BOUNDARY, 0%Qc); (ZSP, frac 1 2); (BOUNDARY, 0%Qc)] [(0,1,SIMPLE); (1,2,SIMPLE)] [0] [2].
Definition all0 : assignment := fun _ => false.
Ltac res_sem := unfold sem, internal; cbn [vertices gty gscalar dkeys map fst filter vty isB dget Nat.eqb]; unfold_sem;
  change {| this := 0; canon := Qred_involutive 0 |} with 0%Qc; change {| this := 1; canon := Qred_involutive 1 |} with 1%Qc; change {| this := 1 # 2; canon := Qred_involutive (1 # 2) |} with (frac 1 2);
  rewrite ?cexp_0, ?cexp_1, ?cexp_half.
Lemma init_number : to_number {| power2 := 0; sphase := 0%Qc; phasenodes := []; floatfactor := (R1, R0); is_unknown := false; is_zero := false |} = C1.
Proof. unfold to_number. cbn. rewrite cexp_0, sq2p_0. change (R1, R0) with C1. ring. Qed.
Lemma ex_lcb_sem : sem ex_lcb all0 = C1.
Proof. unfold sem. replace (internal ex_lcb) with [1] by (vm_compute; reflexivity). unfold_sem. unfold to_number. cbn. change {| this := 0; canon := Qred_involutive 0 |} with 0%Qc. rewrite ?cexp_0, ?sq2p_0. ring. Qed.
Lemma ex_lcb_run : exists g', lc_cong 1 ex_lcb = Ok g' /\ sem g' all0 = C0.
Proof. eexists. split; [vm_compute; reflexivity|]. res_sem. ring. Qed.
Theorem lc_boundary_fails : exists g v g', zinv g /\ glike g /\ In v (vertices g) /\ vty g v = ZSP /\ lc_cong v g = Ok g' /\ ~ same_upto g g'.
Proof.
  destruct ex_lcb_run as [g' [E S]]. exists ex_lcb, 1, g'. split; [apply zinvb_ok; vm_compute; reflexivity|]. split; [apply glikeb_ok; [apply zx_wf, zi_zx, zinvb_ok| |]; vm_compute; reflexivity|].
  split; [vm_compute; auto|]. split; [reflexivity|]. split; [exact E|]. intros [_ [_ [k [Hk H]]]]. specialize (H all0). rewrite S, ex_lcb_sem in H. apply Hk. rewrite H. ring.
Qed.
(** one spider: lc_cong does not update the scalar *)
Definition ex_lc1 : graph := mkgraph [(ZSP, 0%Qc)] [] [] [].
Lemma ex_lc1_sem : forall b, sem ex_lc1 b = (C1 + C1)%C.
Proof. intros b. unfold sem. replace (internal ex_lc1) with [0] by (vm_compute; reflexivity). unfold_sem. unfold to_number. cbn. change {| this := 0; canon := Qred_involutive 0 |} with 0%Qc. rewrite ?cexp_0, ?sq2p_0. ring. Qed.
Lemma ex_lc1_run : exists g', lc_cong 0 ex_lc1 = Ok g' /\ forall b, sem g' b = (sq2p (-1) * (C1 + Ci + Ci - Ci * Ci))%C.
Proof. eexists. split; [vm_compute; reflexivity|]. intros b. res_sem. rewrite init_number. change (R0, R1) with Ci. ring. Qed.
Theorem lc_scalar_fails : exists g v g', zinv g /\ glike g /\ In v (vertices g) /\ vty g v = ZSP /\ (forall n, In n (neighbors g v) -> vty g n = ZSP) /\ lc_cong v g = Ok g' /\ forall b, sem g' b <> sem g b.
Proof.
  destruct ex_lc1_run as [g' [E S]]. exists ex_lc1, 0, g'. split; [apply zinvb_ok; vm_compute; reflexivity|]. split; [apply glikeb_ok; [apply zx_wf, zi_zx, zinvb_ok| |]; vm_compute; reflexivity|].
  split; [vm_compute; auto|]. split; [reflexivity|]. split; [intros n []|]. split; [exact E|]. intros b. rewrite S, ex_lc1_sem, Ci_sq. intros X.
  assert (Y : (sq2p (-1) * sq2p (-1) * (C1 + C1) * ((C1 + C1) * ((C1 + Ci) * (C1 + Ci))) = (C1 + C1) * (C1 + C1))%C).
  { transitivity ((sq2p (-1) * (C1 + Ci + Ci - - C1)) * (sq2p (-1) * (C1 + Ci + Ci - - C1)))%C; [ring|rewrite X; reflexivity]. }
  rewrite sq2p_half in Y. apply (f_equal fst) in Y. cbn in Y. lra.
Qed.
(** a plain wire between two Z spiders is accepted by is_pivot_edge *)
Definition ex_ps : graph := mkgraph [(ZSP, 1%Qc); (ZSP, 0%Qc); (ZSP, 0%Qc)] [(0,1,SIMPLE); (0,2,HADAMARD)] [] [].
Lemma ex_ps_sem : sem ex_ps all0 = ((C1 + C1) * sq2p (-1))%C.
Proof.
  unfold sem. replace (internal ex_ps) with [0;1;2] by (vm_compute; reflexivity). unfold_sem. unfold to_number. cbn. change {| this := 0; canon := Qred_involutive 0 |} with 0%Qc. change {| this := 1; canon := Qred_involutive 1 |} with 1%Qc.
  rewrite ?cexp_0, ?sq2p_0. replace (qmod2 1%Qc) with 1%Qc by (apply Qc_is_canon; reflexivity). rewrite ?cexp_1. ring.
Qed.
Lemma ex_ps_run : exists g', pivot_cong (fun l => l) 0 1 ex_ps = Ok g' /\ sem g' all0 = C0.
Proof. eexists. split; [vm_compute; reflexivity|]. res_sem. ring. Qed.
Theorem pivot_simple_fails : exists g g', zinv g /\ (forall v, In v (vertices g) -> vty g v = ZSP) /\ rand_pivot (fun l => l) g (Ok g') /\ ~ same_upto g g'.
Proof.
  destruct ex_ps_run as [g' [E S]]. exists ex_ps, g'. split; [apply zinvb_ok; vm_compute; reflexivity|]. split; [intros v; vm_compute; intros [<-|[<-|[<-|[]]]]; reflexivity|].
  split; [right; exists (0, 1); split; [vm_compute; auto|symmetry; exact E]|]. intros [_ [_ [k [Hk H]]]]. specialize (H all0). rewrite S, ex_ps_sem in H. symmetry in H. revert H.
  rewrite <- sq2p_2, <- sq2p_add. apply Cmult_neq0; auto. apply sq2p_neq0.
Qed.

(** ** Any number of moves, as the local search makes them *)
Inductive walk (so : list nat -> list nat) : graph -> graph -> Prop :=
| walk_nil : forall g, walk so g g
| walk_lc : forall g g1 g2, rand_lc g (Ok g1) -> walk so g1 g2 -> walk so g g2
| walk_pivot : forall g g1 g2, rand_pivot so g (Ok g1) -> walk so g1 g2 -> walk so g g2.
Theorem walk_ok : forall so g g', orders so -> gok g -> walk so g g' -> gok g' /\ same_upto g g'.
Proof.
  intros so g g' SO G Wk. induction Wk as [g|g g1 g2 R _ IH|g g1 g2 R _ IH].
  - split; auto. apply same_upto_refl.
  - destruct (proj2 (rand_lc_ok g G) _ R) as [[X _]|[_ [h [X [Gh [I0 [O0 S]]]]]]]; [discriminate|]. injection X as <-. destruct (IH Gh) as [G2 [I2 [O2 [k [Hk H]]]]].
    split; auto. split; [congruence|]. split; [congruence|]. exists k. split; auto. intros b. rewrite H, S. auto.
  - destruct (proj2 (rand_pivot_ok so g SO G) _ R) as [[X _]|[_ [h [X [Gh [I0 [O0 [k0 [Hk0 S]]]]]]]]]; [discriminate|]. injection X as <-. destruct (IH Gh) as [G2 [I2 [O2 [k [Hk H]]]]].
    split; auto. split; [congruence|]. split; [congruence|]. exists (k * k0)%C. split; [apply Cmult_neq0; auto|]. intros b. rewrite H, S. ring.
Qed.

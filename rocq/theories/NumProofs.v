(** The [num] argument of the matchers. *)
From Coq Require Import ZArith QArith Qcanon List Bool Arith Lia.
From Verif Require Import CNum Base ScalarModel GraphModel RulesModel SimpModel RunEx.
Import ListNotations.
Open Scope nat_scope.

Ltac nlim k i :=
  let L := fresh "L" in
  destruct (lim_reached (Some k) i) eqn:L; cbn [lim_reached] in L;
  [apply Nat.leb_le in L; replace (k - i) with 0 by lia; reflexivity|apply Nat.leb_gt in L].
Ltac nstep IH k i := first [reflexivity | apply IH | 
  (replace (k - i) with (S (k - (i + 1))) by lia; cbn [firstn]; f_equal; apply IH) | idtac].
Ltac nwalk IH k i :=
  repeat (first [apply IH | (replace (k - i) with (S (k - (i + 1))) by lia; cbn [firstn]; f_equal; apply IH) |
    match goal with |- context[match ?x with _ => _ end] =>
      lazymatch x with context[match_spider_loop] => fail | context[match_ids_loop] => fail | context[match_pivot_loop] => fail | context[match_bialg_loop] => fail
      | _ => destruct x end end]).

Lemma spider_num : forall g k cands i j disc, match_spider_loop g (Some k) i cands disc = firstn (k - i) (match_spider_loop g None j cands disc).
Proof.
  intros g k cands. induction cands as [|e cands IH]; intros i j disc; cbn [match_spider_loop]; [rewrite firstn_nil; auto|].
  nlim k i. cbn [lim_reached]. nwalk IH k i.
Qed.
Lemma ids_num : forall g k cands i j disc, match_ids_loop g (Some k) i cands disc = firstn (k - i) (match_ids_loop g None j cands disc).
Proof.
  intros g k cands. induction cands as [|e cands IH]; intros i j disc; cbn [match_ids_loop]; [rewrite firstn_nil; auto|].
  nlim k i. cbn [lim_reached]. nwalk IH k i.
Qed.
Lemma pivot_num : forall g k cands i j disc, match_pivot_loop g (Some k) i cands disc = firstn (k - i) (match_pivot_loop g None j cands disc).
Proof.
  intros g k cands. induction cands as [|e cands IH]; intros i j disc; cbn [match_pivot_loop]; [rewrite firstn_nil; auto|].
  destruct e as [v0 v1]. nlim k i. cbn [lim_reached]. nwalk IH k i.
Qed.
Lemma bialg_num : forall g k cands i j disc, match_bialg_loop g (Some k) i cands disc = firstn (k - i) (match_bialg_loop g None j cands disc).
Proof.
  intros g k cands. induction cands as [|e cands IH]; intros i j disc; cbn [match_bialg_loop]; [rewrite firstn_nil; auto|].
  nlim k i. cbn [lim_reached]. nwalk IH k i.
Qed.
Lemma pivot_boundary_num : forall k cands i disc consumed el g ms el' g',
  match_pivot_boundary_loop (Some k) i cands disc consumed el g = Ok (ms, el', g') -> length ms <= k - i.
Proof.
  intros k cands. induction cands as [|v cands IH]; intros i disc consumed el g ms el' g' E; cbn [match_pivot_boundary_loop] in E.
  - injection E as <- _ _. simpl. lia.
  - destruct (lim_reached (Some k) i) eqn:L; [injection E as <- _ _; simpl; lia|]. cbn in L. apply Nat.leb_gt in L.
    destruct (nmem v disc); [eapply IH; eauto|]. destruct (_ || _); [eapply IH; eauto|].
    destruct (boundary_scan _ _ _ _) as [[[w bound]|]|]; [|eapply IH; eauto|eapply IH; eauto].
    inv_bind E. destruct (add_vertex _ _ _ _ g) as [g1 v1]. inv_bind E. destruct (add_vertex _ _ _ _ g1) as [g2 v2].
    inv_bind E. destruct a1 as [[ms1 el1] g3]. injection E as <- _ _. apply IH in E2. simpl. lia.
Qed.

Theorem match_spider_parallel_num : forall cands k g, match_spider_parallel cands (Some k) g = firstn k (match_spider_parallel cands None g).
Proof. intros. unfold match_spider_parallel. rewrite (spider_num g k cands 0 0). f_equal. lia. Qed.
Theorem match_ids_parallel_num : forall cands k g, match_ids_parallel cands (Some k) g = firstn k (match_ids_parallel cands None g).
Proof. intros. unfold match_ids_parallel. rewrite (ids_num g k cands 0 0). f_equal. lia. Qed.
Theorem match_pivot_parallel_num : forall cands k g, match_pivot_parallel cands (Some k) g = firstn k (match_pivot_parallel cands None g).
Proof. intros. unfold match_pivot_parallel. rewrite (pivot_num g k cands 0 0). f_equal. lia. Qed.
Theorem match_bialg_parallel_num : forall cands k g, match_bialg_parallel cands (Some k) g = firstn k (match_bialg_parallel cands None g).
Proof. intros. unfold match_bialg_parallel. rewrite (bialg_num g k cands 0 0). f_equal. lia. Qed.
Theorem match_pivot_boundary_num : forall cands k g ms g', match_pivot_boundary cands (Some k) g = Ok (ms, g') -> length ms <= k.
Proof.
  intros cands k g ms g' E. unfold match_pivot_boundary in E. inv_bind E. destruct a as [[ms1 el] g1]. inv_bind E. injection E as <- _.
  apply pivot_boundary_num in E0. lia.
Qed.

(** ** Matchers that ignore the limit *)
(** two spiders with phase pi/2 *)
Definition ex_lc2 : graph := mkgraph [(ZSP, frac 1 2); (ZSP, frac 1 2)] [] [] [].
(** four triangles, each with one Pauli spider *)
Definition ex_tri4 : graph := mkgraph
  (flat_map (fun _ : nat => [(ZSP, 0%Qc); (ZSP, frac 1 4); (ZSP, frac 1 4)]) (seq 0 4))
  (flat_map (fun i => [(3*i, 3*i+1, HADAMARD); (3*i, 3*i+2, HADAMARD); (3*i+1, 3*i+2, HADAMARD)]) (seq 0 4)) [] [].
Theorem match_lcomp_num_refuted : length (match_lcomp_parallel (vertices ex_lc2) (Some 1) ex_lc2) = 2.
Proof. vm_compute. reflexivity. Qed.
Theorem match_pivot_gadget_num_refuted : exists ms g', match_pivot_gadget (edges ex_tri4) (Some 3) ex_tri4 = Ok (ms, g') /\ length ms = 4.
Proof. eexists. eexists. split; [vm_compute; reflexivity|reflexivity]. Qed.
(** a positive limit on local complementations has no effect at all *)
Theorem match_lcomp_num_ignored : forall cands k g, match_lcomp_parallel cands (Some (S k)) g = match_lcomp_parallel cands None g.
Proof.
  intros cands k g. unfold match_lcomp_parallel. generalize (@nil nat) as disc.
  induction cands as [|v cands IH]; intros disc; cbn [match_lcomp_loop]; auto. cbn [lim_zero lim_reached Nat.leb]. rewrite !IH. auto.
Qed.

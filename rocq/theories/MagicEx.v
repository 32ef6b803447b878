(** Concrete diagrams for the magic state decompositions. *)
From Coq Require Import Reals ZArith QArith Qcanon List Bool Arith Lia Lra Permutation.
From Verif Require Import CNum Base ScalarModel ScalarProofs GraphModel GateModel GraphSem SumLemmas GraphProofs RuleLemmas TotalProofs Decide RunEx ZXFacts IsoExact RedFacts GraphAlgModel GraphAlgProofs GraphAlgFacts AlgUse MagicModel MagicAlg MagicSum.
Import ListNotations.
Local Open Scope nat_scope.

Definition tzb (g : graph) : bool := forallb (fun v => negb (tlike (phase g v)) || vtype_eqb (vty g v) ZSP) (vertices g).
Lemma tzb_ok : forall g, tzb g = true -> tz g.
Proof.
  intros g H v Hv T. unfold tzb in H. rewrite forallb_forall in H. specialize (H v Hv). rewrite T in H. destruct (vty g v); auto; discriminate.
Qed.
(** seven T-like spiders between an input and an output *)
Definition ex_seven : graph := mkgraph
  [(BOUNDARY, 0%Qc); (BOUNDARY, 0%Qc); (ZSP, frac 1 4); (ZSP, frac 3 4); (ZSP, frac 5 4); (ZSP, frac 7 4); (ZSP, frac 1 4); (ZSP, frac 1 4); (ZSP, frac 3 4); (XSP, frac 1 2)]
  [(0,2,SIMPLE); (2,3,HADAMARD); (2,4,HADAMARD); (3,5,HADAMARD); (4,6,HADAMARD); (5,7,HADAMARD); (6,7,HADAMARD); (7,8,HADAMARD); (8,9,SIMPLE); (9,1,HADAMARD)] [0] [1].
(** three of them *)
Definition ex_three_t : graph := mkgraph
  [(BOUNDARY, 0%Qc); (BOUNDARY, 0%Qc); (ZSP, frac 1 4); (ZSP, frac 3 4); (ZSP, frac 5 4)]
  [(0,2,SIMPLE); (2,3,HADAMARD); (3,4,HADAMARD); (4,2,HADAMARD); (4,1,SIMPLE)] [0] [1].

(** An X spider is counted as a T-like spider, but its replacement is that of a Z spider. *)
Definition ex_xt : graph := mkgraph [(XSP, frac 1 4)] [] [] [].
Theorem magic_x_refuted : exists g hs, zinv g /\ io_ok g /\ allph quarter g /\ replace_magic_states false g (Some (Ok hs)) /\
  forall i y, csum (map (fun h => val h i y) hs) <> val g i y.
Proof.
  assert (Z : zinv ex_xt) by (apply zinvb_ok; vm_compute; reflexivity). assert (N : io_ok ex_xt) by (apply io_okb_ok; vm_compute; reflexivity).
  assert (E : exists h1 h2, replace_magic_states false ex_xt (Some (Ok [h1; h2])) /\ forall b, sem h1 b = sq2p 1 /\ sem h2 b = C0).
  { eexists. eexists. split.
    - unfold replace_magic_states. destruct (g_copy false ex_xt) as [c|] eqn:E; [|vm_compute in E; discriminate]. vm_compute in E. injection E as <-.
      exists [0]. split; [vm_compute; reflexivity|]. vm_compute. reflexivity.
    - intros b. split.
      + unfold sem. unfold internal. cbn [vertices gty gscalar dkeys map fst filter vty isB dget Nat.eqb]. unfold_sem.
        change {| this := 0; canon := Qred_involutive 0 |} with 0%Qc. rewrite ?cexp_0. unfold to_number. simpl. rewrite ?cexp_0. change (R1, R0) with C1.
        transitivity (sq2p (-1) * sq2p 2)%C; [rewrite sq2p_2; ring|]. rewrite <- sq2p_add. reflexivity.
      + unfold sem. unfold internal. cbn [vertices gty gscalar dkeys map fst filter vty isB dget Nat.eqb]. unfold_sem.
        change {| this := 0; canon := Qred_involutive 0 |} with 0%Qc. change {| this := 1; canon := Qred_involutive 1 |} with 1%Qc. rewrite ?cexp_0, ?cexp_1. unfold to_number. ring. }
  destruct E as [h1 [h2 [R S]]]. exists ex_xt, [h1; h2]. split; auto. split; auto. split; [apply allqb_ok; vm_compute; reflexivity|]. split; auto.
  intros i y H. cbn [map csum] in H. unfold val in H. rewrite (proj1 (S _)), (proj2 (S _)) in H.
  assert (V : forall b, sem ex_xt b = (C1 + cexp (frac 1 4))%C).
  { intros b. unfold sem. replace (internal ex_xt) with [0] by reflexivity. unfold_sem.
    change {| this := 1 # 4; canon := Qred_involutive (1 # 4) |} with (frac 1 4). rewrite ?cexp_qmod2. unfold to_number. simpl. rewrite ?cexp_0, ?sq2p_0. change (R1, R0) with C1. ring. }
  rewrite V in H. unfold csum in H. cbn [fold_right] in H. assert (W : cexp (frac 1 4) = (sq2p 1 - C1)%C) by (transitivity ((C1 + cexp (frac 1 4)) - C1)%C; [ring|rewrite <- H; ring]).
  assert (Q : (cexp (frac 1 4) * cexp (frac 1 4))%C = Ci) by (rewrite <- cexp_add; replace (frac 1 4 + frac 1 4)%Qc with (frac 1 2) by (apply Qc_is_canon; reflexivity); exact cexp_half).
  rewrite W, sq2p_1 in Q. apply (f_equal snd) in Q. unfold sq2, Cminus, Cplus, Copp, Cmult, Ci, C1, RtoC in Q. simpl in Q. lra.
Qed.

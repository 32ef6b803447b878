(** Property theorems: the moves of the local search, congruences.py (C76, C77). *)
From Coq Require Import Reals ZArith QArith Qcanon List Bool Arith Lia Permutation.
From Verif Require Import CNum Base ScalarModel GraphModel GraphSem GraphProofs RulesModel RuleLemmas PivotMatch InvProofs BfixProofs TotalProofs RunEx ZXFacts RedFacts CongModel CongProofs CongPivot CongEx.
Import ListNotations.
Open Scope nat_scope.

(** [gok g]: the dictionaries fit together, no loops, only boundaries and Z spiders, and only
    Hadamard wires between the Z spiders.  Each move gives such a diagram again. *)

(** apply_rand_lc: whatever spider is drawn the map is kept exactly; without a candidate
    it raises ZeroDivisionError. *)
Theorem C76_rand_lc : forall g, gok g -> (exists r, rand_lc g r) /\ forall r, rand_lc g r ->
  (r = Err ZeroDivisionError /\ forall v, ~ lc_cand g v) \/
  ((exists v, lc_cand g v) /\ exists g', r = Ok g' /\ gok g' /\ ginputs g' = ginputs g /\ goutputs g' = goutputs g /\ forall b, sem g' b = sem g b).
Proof. exact rand_lc_ok. Qed.
Print Assumptions C76_rand_lc.
(** lc_cong at a Z spider all of whose neighbours are Z spiders *)
Theorem C76_lc_cong : forall v g, gok g -> In v (vertices g) -> vty g v = ZSP -> (forall n, In n (neighbors g v) -> vty g n = ZSP) ->
  exists g', lc_cong v g = Ok g' /\ gok g' /\ same_upto g g'.
Proof. exact lc_cong_ok. Qed.
Print Assumptions C76_lc_cong.
(** At a spider next to a boundary lc_cong loses the map, *)
Theorem C76_boundary_refuted : exists g v g', zinv g /\ glike g /\ In v (vertices g) /\ vty g v = ZSP /\ lc_cong v g = Ok g' /\ ~ same_upto g g'.
Proof. exact lc_boundary_fails. Qed.
Print Assumptions C76_boundary_refuted.
(** and it never keeps track of the scalar. *)
Theorem C76_scalar_refuted : exists g v g', zinv g /\ glike g /\ In v (vertices g) /\ vty g v = ZSP /\ (forall n, In n (neighbors g v) -> vty g n = ZSP) /\ lc_cong v g = Ok g' /\
  forall b, sem g' b <> sem g b.
Proof. exact lc_scalar_fails. Qed.
Print Assumptions C76_scalar_refuted.

(** a T spider in the middle of three spiders, two of them joined *)
Definition ex_lc : graph := mkgraph
  [(ZSP, frac 1 4); (ZSP, 0%Qc); (ZSP, 0%Qc); (ZSP, 0%Qc); (BOUNDARY, 0%Qc); (BOUNDARY, 0%Qc); (BOUNDARY, 0%Qc)]
  [(0,1,HADAMARD); (0,2,HADAMARD); (0,3,HADAMARD); (1,2,HADAMARD); (1,4,SIMPLE); (2,5,SIMPLE); (3,6,HADAMARD)] [4] [5;6].
Lemma ex_lc_zinv : zinv ex_lc. Proof. apply zinvb_ok. vm_compute. reflexivity. Qed.
Lemma ex_lc_glike : glike ex_lc. Proof. apply glikeb_ok; [apply zx_wf, zi_zx, ex_lc_zinv| |]; vm_compute; reflexivity. Qed.
Lemma ex_lc_nb : neighbors ex_lc 0 = [1;2;3]. Proof. vm_compute. reflexivity. Qed.
Lemma ex_lc_res : exists g', lc_cong 0 ex_lc = Ok g' /\ vertices g' = [0;1;2;3;4;5;6;7] /\
  map (fun e : nat * nat => edge_type g' (fst e) (snd e)) [(1,2); (1,3); (2,3); (0,7); (0,1)] = [None; Some HADAMARD; Some HADAMARD; Some HADAMARD; Some HADAMARD].
Proof. eexists. split; [vm_compute; reflexivity|split; reflexivity]. Qed.
Lemma ex_lc_res2 : exists g', lc_cong2 0 ex_lc = Ok g' /\ vertices g' = [0;1;2;3;4;5;6;7;8]. Proof. eexists. split; [vm_compute; reflexivity|reflexivity]. Qed.
Example C76_case : gok ex_lc /\ lc_cand ex_lc 0 /\ (forall n, In n (neighbors ex_lc 0) -> vty ex_lc n = ZSP) /\
  (exists g', rand_lc ex_lc (Ok g') /\ vertices g' = [0;1;2;3;4;5;6;7;8]) /\
  exists g', lc_cong 0 ex_lc = Ok g' /\ vertices g' = [0;1;2;3;4;5;6;7] /\
    map (fun e : nat * nat => edge_type g' (fst e) (snd e)) [(1,2); (1,3); (2,3); (0,7); (0,1)] = [None; Some HADAMARD; Some HADAMARD; Some HADAMARD; Some HADAMARD].
Proof.
  assert (N0 : forall n, In n (neighbors ex_lc 0) -> vty ex_lc n = ZSP) by (rewrite ex_lc_nb; intros n [<-|[<-|[<-|[]]]]; reflexivity).
  assert (L : lc_cand ex_lc 0).
  { split; [vm_compute; auto|]. split; [reflexivity|]. split; [rewrite ex_lc_nb; simpl; lia|]. intros n Hn. apply neighbors_spec in Hn. intros X. assert (Y := N0 n Hn). rewrite X in Y. discriminate. }
  split; [apply gok_of; [apply ex_lc_zinv|apply ex_lc_glike]|]. split; auto. split; auto. split; [|exact ex_lc_res].
  destruct ex_lc_res2 as [g' [E V]]. exists g'. split; auto. right. exists 0. split; [exact (proj2 (lc_cand_iff ex_lc 0) L)|symmetry; exact E].
Qed.
(** no candidate: the empty diagram *)
Example C76_case_none : rand_lc empty_graph (Err ZeroDivisionError).
Proof. left. split; reflexivity. Qed.

(** pivot_cong along any wire between two Z spiders, boundaries allowed next to both; the
    map is kept up to a factor for every order in which sets are listed. *)
Theorem C77_pivot_cong : forall so v1 v2 g, (forall l, Permutation (so l) l) -> gok g -> edge_type g v1 v2 <> None -> vty g v1 = ZSP -> vty g v2 = ZSP ->
  exists g', pivot_cong so v1 v2 g = Ok g' /\ gok g' /\ same_upto g g'.
Proof. exact pivot_cong_ok. Qed.
Print Assumptions C77_pivot_cong.
Theorem C77_rand_pivot : forall so g, (forall l, Permutation (so l) l) -> gok g -> (exists r, rand_pivot so g r) /\ forall r, rand_pivot so g r ->
  (r = Err ZeroDivisionError /\ forall u v, ~ pv_cand g u v) \/ ((exists u v, pv_cand g u v) /\ exists g', r = Ok g' /\ gok g' /\ same_upto g g').
Proof. exact rand_pivot_ok. Qed.
Print Assumptions C77_rand_pivot.
(** Any number of random moves, in any order. *)
Theorem C77_walk : forall so g g', (forall l, Permutation (so l) l) -> gok g -> walk so g g' -> gok g' /\ same_upto g g'.
Proof. exact walk_ok. Qed.
Print Assumptions C77_walk.
(** is_pivot_edge does not look at the type of the wire: along a plain wire the map is lost. *)
Theorem C77_simple_refuted : exists g g', zinv g /\ (forall v, In v (vertices g) -> vty g v = ZSP) /\ rand_pivot (fun l => l) g (Ok g') /\ ~ same_upto g g'.
Proof. exact pivot_simple_fails. Qed.
Print Assumptions C77_simple_refuted.

(** a wire whose ends have a common neighbour, own neighbours and a boundary *)
Definition ex_pv : graph := mkgraph
  [(ZSP, frac 1 4); (ZSP, frac 3 4); (ZSP, 0%Qc); (ZSP, 0%Qc); (ZSP, 0%Qc); (BOUNDARY, 0%Qc); (BOUNDARY, 0%Qc)]
  [(0,1,HADAMARD); (0,2,HADAMARD); (0,3,HADAMARD); (1,3,HADAMARD); (1,4,HADAMARD); (2,4,HADAMARD); (0,5,SIMPLE); (4,6,SIMPLE)] [5] [6].
Lemma ex_pv_zinv : zinv ex_pv. Proof. apply zinvb_ok. vm_compute. reflexivity. Qed.
Lemma ex_pv_glike : glike ex_pv. Proof. apply glikeb_ok; [apply zx_wf, zi_zx, ex_pv_zinv| |]; vm_compute; reflexivity. Qed.
Lemma ex_pv_res : exists g', pivot_cong (fun l => l) 0 1 ex_pv = Ok g' /\ vertices g' = [0;1;2;3;4;5;6;7;8] /\
  map (fun e : nat * nat => edge_type g' (fst e) (snd e)) [(2,3); (3,4); (2,4); (0,5); (7,5); (0,8); (1,7); (0,7)] = [Some HADAMARD; Some HADAMARD; None; None; Some SIMPLE; Some HADAMARD; Some HADAMARD; None].
Proof. eexists. split; [vm_compute; reflexivity|split; reflexivity]. Qed.
Example C77_case : gok ex_pv /\ pv_cand ex_pv 0 1 /\ exists g', pivot_cong (fun l => l) 0 1 ex_pv = Ok g' /\ walk (fun l => l) ex_pv g' /\ vertices g' = [0;1;2;3;4;5;6;7;8] /\
  map (fun e : nat * nat => edge_type g' (fst e) (snd e)) [(2,3); (3,4); (2,4); (0,5); (7,5); (0,8); (1,7); (0,7)] = [Some HADAMARD; Some HADAMARD; None; None; Some SIMPLE; Some HADAMARD; Some HADAMARD; None].
Proof.
  split; [apply gok_of; [apply ex_pv_zinv|apply ex_pv_glike]|]. split; [split; [vm_compute; discriminate|split; reflexivity]|].
  destruct ex_pv_res as [g' [E H]]. exists g'. split; auto. split; auto. apply walk_pivot with (g1 := g'); [|apply walk_nil]. right. exists (0, 1). split; [vm_compute; auto|symmetry; exact E].
Qed.

(** Property theorems: the bialgebra rewrite, bialg_simp and phase_free_simp (C75). *)
From Coq Require Import Reals ZArith QArith Qcanon List Bool Arith Lia Permutation.
From Verif Require Import CNum Base ScalarModel ScalarProofs GraphModel GraphSem RulesModel SimpModel RuleLemmas PivotMatch InvProofs BfixProofs TotalProofs RunEx ZXFacts RedFacts Bialg BialgLoop BialgEx Decide.
Import ListNotations.
Open Scope nat_scope.

(** [plain g]: no Hadamard wire joins a Z and an X spider.  Then, whatever order the edges are
    visited in: bialg_simp stops without error, keeps the map up to one non-zero factor, and
    leaves no wire to which the rule applies. *)
Theorem C75_bialg_simp : forall g, zinv g -> plain g -> halts bialg_simp g /\ (exists r, run bialg_simp g r) /\
  forall r, run bialg_simp g r -> exists n g', r = Ok (n, g') /\ zinv g' /\ plain g' /\ same_upto g g' /\ forall u w, ~ bialgable g' u w.
Proof. exact bialg_simp_ok. Qed.
Print Assumptions C75_bialg_simp.
Theorem C75_phase_free_simp : forall g, zinv g -> plain g -> halts phase_free_simp g /\ (exists r, run phase_free_simp g r) /\
  forall r, run phase_free_simp g r -> exists n g', r = Ok (n, g') /\ zinv g' /\ plain g' /\ same_upto g g' /\ forall u w, ~ bialgable g' u w.
Proof. exact phase_free_ok. Qed.
Print Assumptions C75_phase_free_simp.
(** The factor that one round loses: a matched pair with k and l other neighbours loses
    sqrt 2 to the power (k-1)(l-1). *)
Theorem C75_factor : forall g c b g', zinv g -> plain g -> allph quarter g -> Permutation c (edges g) ->
  simp_once (fun g => Ok (match_bialg_parallel c None g, g)) bialg g = Ok (b, g') ->
  ginputs g' = ginputs g /\ goutputs g' = goutputs g /\ allph quarter g' /\
  forall y, sem g y = (sq2p (fold_right (fun m z => ((Z.of_nat (length (snd (fst m))) - 1) * (Z.of_nat (length (snd m)) - 1) + z)%Z) 0%Z
    (match_bialg_parallel c None g)) * sem g' y)%C.
Proof. exact bialg_factor. Qed.
Print Assumptions C75_factor.
(** The exact map is not kept: the scalar is never updated. *)
Theorem C75_scalar_refuted : exists g n g', zinv g /\ plain g /\ allph quarter g /\ run bialg_simp g (Ok (n, g')) /\ run phase_free_simp g (Ok (n, g')) /\
  forall b, sem g' b <> sem g b.
Proof. exact bialg_scalar_fails. Qed.
Print Assumptions C75_scalar_refuted.
(** With a Hadamard wire between the two spiders the map changes altogether: the types of the
    edges are not looked at. *)
Theorem C75_hadamard_refuted : exists g n g', zinv g /\ allph quarter g /\ run bialg_simp g (Ok (n, g')) /\ run phase_free_simp g (Ok (n, g')) /\ ~ same_upto g g'.
Proof. exact bialg_hadamard_fails. Qed.
Print Assumptions C75_hadamard_refuted.

(** two X spiders on the inputs, two Z spiders on the outputs, joined by a Z-X pair *)
Definition ex_bialg : graph := mkgraph
  [(BOUNDARY, 0%Qc); (BOUNDARY, 0%Qc); (XSP, 0%Qc); (XSP, 0%Qc); (ZSP, 0%Qc); (XSP, 0%Qc); (ZSP, 0%Qc); (ZSP, 0%Qc); (BOUNDARY, 0%Qc); (BOUNDARY, 0%Qc)]
  [(0,2,SIMPLE); (1,3,HADAMARD); (2,4,SIMPLE); (3,4,SIMPLE); (4,5,SIMPLE); (5,6,SIMPLE); (5,7,SIMPLE); (6,8,SIMPLE); (7,9,HADAMARD)] [0;1] [8;9].
Example C75_case : zinv ex_bialg /\ plain ex_bialg /\ allph quarter ex_bialg /\ bialgable ex_bialg 4 5 /\
  exists g', run phase_free_simp ex_bialg (Ok (1, g')) /\ vertices g' = [0;1;2;3;6;7;8;9] /\
    map (fun e : nat * nat => edge_type g' (fst e) (snd e)) [(2,6); (2,7); (3,6); (3,7); (1,3)] = [Some SIMPLE; Some SIMPLE; Some SIMPLE; Some SIMPLE; Some HADAMARD].
Proof.
  split; [apply zinvb_ok; vm_compute; reflexivity|]. split; [apply plainb_ok; vm_compute; reflexivity|]. split; [apply allqb_ok; vm_compute; reflexivity|]. split.
  - assert (N4 : GraphModel.neighbors ex_bialg 4 = [2;3;5]) by (vm_compute; reflexivity). assert (N5 : GraphModel.neighbors ex_bialg 5 = [4;6;7]) by (vm_compute; reflexivity).
    split; [vm_compute; discriminate|]. split; [left; split; reflexivity|]. split; [reflexivity|]. split; [reflexivity|]. split; intros n Hn D; apply GraphProofs.neighbors_spec in Hn;
    [rewrite N4 in Hn|rewrite N5 in Hn]; simpl in Hn; destruct Hn as [<-|[<-|[<-|[]]]]; try congruence; split; reflexivity.
  - assert (E : exists g', exec_pf 5 ex_bialg = Some (1, g') /\ vertices g' = [0;1;2;3;6;7;8;9] /\
      map (fun e : nat * nat => edge_type g' (fst e) (snd e)) [(2,6); (2,7); (3,6); (3,7); (1,3)] = [Some SIMPLE; Some SIMPLE; Some SIMPLE; Some SIMPLE; Some HADAMARD])
      by (eexists; split; [vm_compute; reflexivity|split; reflexivity]).
    destruct E as [g' [E H]]. exists g'. split; auto. eapply exec_pf_run; eauto.
Qed.
Lemma C75_case_round : exists g', simp_once (fun g => Ok (match_bialg_parallel (edges ex_bialg) None g, g)) bialg ex_bialg = Ok (true, g').
Proof. eexists. vm_compute. reflexivity. Qed.
Example C75_case_factor : exists g', simp_once (fun g => Ok (match_bialg_parallel (edges ex_bialg) None g, g)) bialg ex_bialg = Ok (true, g') /\
  map (fun m : nat * nat * list nat * list nat => (length (snd (fst m)), length (snd m))) (match_bialg_parallel (edges ex_bialg) None ex_bialg) = [(2, 2)].
Proof. destruct C75_case_round as [g' E]. exists g'. split; [exact E|vm_compute; reflexivity]. Qed.

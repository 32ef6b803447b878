(** Where a theorem only gave proportional circuits, they agree up to a phase. *)
From Coq Require Import Reals ZArith QArith Qcanon List Bool Arith Lia Permutation.
From Verif Require Import LinModel CNum Base ScalarModel GraphModel GraphSem SpiderProofs GraphProofs TotalProofs SimpModel RunEx RedFacts ZXFacts GateModel CircSpec GateProofs GateDecomp GateMask GraphAlgProofs
  CircGraphModel CircGraphFacts VerifyModel VerifyProofs IsoExact ExtractModel ExtractMap ExtractRound ExtractFinish ExtractKeys ExtractFacts BackNorm.
Import ListNotations.
Open Scope nat_scope.

Theorem verify_phase : forall so c d, is_perm_oracle so -> so (seq 0 (cqubits c)) = seq 0 (cqubits c) -> circ_ok c -> circ_ok d -> (forall g, In g (cgates c) -> GateAdj.adj_good g) ->
  verify_equality so false c d (Ok true) -> cqubits d = cqubits c /\ eq_phase (cden (cgates d)) (cden (cgates c)).
Proof. intros so c d P S Hc Hd A V. destruct (verify_sound_id so c d P S Hc Hd A V) as [Q X]. split; auto. apply proportional_phase; auto. Qed.
Theorem extract_phase : forall opt g c0 c g', circ_ok c0 -> gok g -> hubs_ok g -> hubs_sep g -> denotes g (cqubits c0) (cgates c0) -> run (extract_circuit false opt false) g (Ok (c, g')) ->
  cqubits c = cqubits c0 /\ circ_ok c /\ eq_phase (cden (cgates c)) (cden (cgates c0)).
Proof. intros opt g c0 c g' H0 G HB HS D R. destruct (extract_denotes opt g _ _ c g' G HB HS D R) as (Q & C & X). split; auto. split; auto. apply proportional_phase; auto. Qed.
Theorem full_phase : forall so compress opt c g0 u g d g',
  is_perm_oracle so -> so (seq 0 (cqubits c)) = seq 0 (cqubits c) -> circ_ok c ->
  to_graph so false compress c = Ok g0 -> run (full_reduce AllC) g0 (Ok (u, g)) -> hubs_ok g -> hubs_sep g -> run (extract_circuit false opt false) g (Ok (d, g')) ->
  cqubits d = cqubits c /\ circ_ok d /\ eq_phase (cden (cgates d)) (cden (cgates c)).
Proof. intros so cr opt c g0 u g d g' P S Hc T F HB HS R. destruct (optimise_full so cr opt c g0 u g d g' P S Hc T F HB HS R) as (Q & C & X). split; auto. split; auto. apply proportional_phase; auto. Qed.
Theorem clifford_phase : forall so compress opt c g0 u g d g',
  is_perm_oracle so -> so (seq 0 (cqubits c)) = seq 0 (cqubits c) -> circ_ok c ->
  to_graph so false compress c = Ok g0 -> run (clifford_simp AllC) g0 (Ok (u, g)) -> hubs_ok g -> hubs_sep g -> run (extract_circuit false opt false) g (Ok (d, g')) ->
  cqubits d = cqubits c /\ circ_ok d /\ eq_phase (cden (cgates d)) (cden (cgates c)).
Proof. intros so cr opt c g0 u g d g' P S Hc T F HB HS R. destruct (optimise_clifford so cr opt c g0 u g d g' P S Hc T F HB HS R) as (Q & C & X). split; auto. split; auto. apply proportional_phase; auto. Qed.

(** Building diagrams from diagrams: C28 compose, C29 tensor, C30 copy and
    adjoint, C42 states and effects, C50 merge, C51 subgraph.

    [val g i y] is the matrix entry of the diagram: its value with bit [i j] on
    input j and [y j] on output j. [sumv (seq 0 n) F w0] sums F over all
    assignments of bits to 0..n-1. *)
From Coq Require Import Reals ZArith QArith Qcanon List Bool Arith Lia Ascii.
From Verif Require Import CNum Base ScalarModel GraphModel GraphSem GraphProofs SumLemmas TotalProofs RunEx ZXFacts GateModel
  GraphAlgModel GraphAlgProofs GraphAlgFacts ComposeFacts ApplyProofs AlgUse.
Import ListNotations.
Open Scope nat_scope.

Theorem C28_compose : forall g h, zinv g -> io_ok g -> zinv h -> io_ok h -> length (goutputs g) = length (ginputs h) ->
  no_wire g (goutputs g) -> no_wire h (ginputs h) ->
  exists r, compose g h = Ok r /\ zinv r /\ io_ok r /\ ginputs r = ginputs g /\ length (goutputs r) = length (goutputs h) /\
  forall inp y w0, (val r inp y = sumv (seq 0 (length (goutputs g))) (fun w => val g inp w * val h w y) w0)%C.
Proof. exact compose_val. Qed.
Print Assumptions C28_compose.
Theorem C28_plus : forall g h, zinv g -> io_ok g -> zinv h -> io_ok h -> length (goutputs g) = length (ginputs h) ->
  no_wire g (goutputs g) -> no_wire h (ginputs h) ->
  exists r, g_plus g h = Ok r /\ zinv r /\ io_ok r /\ length (ginputs r) = length (ginputs g) /\ length (goutputs r) = length (goutputs h) /\
  forall inp y w0, (val r inp y = sumv (seq 0 (length (goutputs g))) (fun w => val g inp w * val h w y) w0)%C.
Proof. exact plus_val. Qed.
Print Assumptions C28_plus.
Theorem C28_times : forall g h, zinv g -> io_ok g -> zinv h -> io_ok h -> length (goutputs h) = length (ginputs g) ->
  no_wire h (goutputs h) -> no_wire g (ginputs g) ->
  exists r, g_times g h = Ok r /\ zinv r /\ io_ok r /\ length (ginputs r) = length (ginputs h) /\ length (goutputs r) = length (goutputs g) /\
  forall inp y w0, (val r inp y = sumv (seq 0 (length (goutputs h))) (fun w => val h inp w * val g w y) w0)%C.
Proof. exact times_val. Qed.
Print Assumptions C28_times.
Theorem C28_arity_error : forall g h, zinv h -> io_ok h -> length (goutputs g) <> length (ginputs h) -> compose g h = Err TypeError.
Proof. exact compose_arity. Qed.
Print Assumptions C28_arity_error.
(** a two-qubit gate followed by crossed wires, one of them a Hadamard wire *)
Example C28_case : zinv ex_two /\ io_ok ex_two /\ zinv ex_wire2 /\ io_ok ex_wire2 /\ length (goutputs ex_two) = length (ginputs ex_wire2) /\
  no_wire ex_two (goutputs ex_two) /\ no_wire ex_wire2 (ginputs ex_wire2) /\
  (exists r, compose ex_two ex_wire2 = Ok r /\ num_vertices r = 6 /\ length (edges r) = 5) /\
  (exists r, g_times ex_two ex_wire2 = Ok r /\ num_vertices r = 6 /\ length (edges r) = 5).
Proof.
  split; [apply zinvb_ok; vm_compute; reflexivity|]. split; [apply io_okb_ok; vm_compute; reflexivity|]. split; [apply zinvb_ok; vm_compute; reflexivity|].
  split; [apply io_okb_ok; vm_compute; reflexivity|]. split; [reflexivity|]. split; [apply no_wireb_ok; vm_compute; reflexivity|]. split; [apply no_wireb_ok; vm_compute; reflexivity|].
  split; (eexists; split; [vm_compute; reflexivity|vm_compute; auto]).
Qed.
(** a wire joining two outputs of the first diagram, or two inputs of the second, breaks it *)
Theorem C28_compose_refuted : exists g h, zinv g /\ io_ok g /\ zinv h /\ io_ok h /\ length (goutputs g) = length (ginputs h) /\ compose g h = Err KeyError.
Proof. exact compose_cup_refuted. Qed.
Print Assumptions C28_compose_refuted.
Theorem C28_compose_caps_refuted : exists g h, zinv g /\ io_ok g /\ zinv h /\ io_ok h /\ length (goutputs g) = length (ginputs h) /\ no_wire g (goutputs g) /\ compose g h = Err KeyError.
Proof. exact compose_cap_refuted. Qed.
Print Assumptions C28_compose_caps_refuted.

Theorem C29_tensor : forall g h, zinv g -> io_ok g -> zinv h -> io_ok h -> qubs_ok h -> exists r, tensor g h = Ok r /\
  zinv r /\ io_ok r /\ qubs_ok r /\ length (ginputs r) = length (ginputs g) + length (ginputs h) /\
  length (goutputs r) = length (goutputs g) + length (goutputs h) /\
  forall i y, (val r i y = val g i y * val h (fun j => i (length (ginputs g) + j)%nat) (fun j => y (length (goutputs g) + j)%nat))%C.
Proof. exact tensor_val. Qed.
Print Assumptions C29_tensor.
Definition qubs_okb (g : graph) : bool := forallb (fun v => match dget v (gqindex g) with None => false | _ => true end) (vertices g).
Lemma qubs_okb_ok : forall g, qubs_okb g = true -> qubs_ok g.
Proof. intros g H v Hv. unfold qubs_okb in H. rewrite forallb_forall in H. specialize (H v Hv). destruct (dget v (gqindex g)); [discriminate|discriminate H]. Qed.
Example C29_case : zinv ex_two /\ io_ok ex_two /\ qubs_ok ex_two /\ zinv ex_cup /\ io_ok ex_cup /\ exists r, tensor ex_cup ex_two = Ok r /\ num_vertices r = 8 /\ length (goutputs r) = 4.
Proof.
  split; [apply zinvb_ok; vm_compute; reflexivity|]. split; [apply io_okb_ok; vm_compute; reflexivity|]. split; [apply qubs_okb_ok; vm_compute; reflexivity|].
  split; [apply zinvb_ok; vm_compute; reflexivity|]. split; [apply io_okb_ok; vm_compute; reflexivity|]. eexists. split; [vm_compute; reflexivity|vm_compute; auto].
Qed.

(** copy renumbers the vertices 0, 1, ... and keeps everything else *)
Theorem C30_copy : forall h, zinv h -> io_ok h -> exists r f, g_copy false h = Ok r /\
  iso h f r /\ (forall v, In v (vertices h) -> phase r (f v) = phase h v) /\ vertices r = seq 0 (num_vertices h) /\
  ginputs r = map f (ginputs h) /\ goutputs r = map f (goutputs h) /\
  zinv r /\ io_ok r /\ qubs_ok r /\ to_number (gscalar r) = to_number (gscalar h) /\ forall i y, val r i y = val h i y.
Proof. exact copy_val. Qed.
Print Assumptions C30_copy.
Theorem C30_adjoint : forall h, zinv h -> io_ok h -> exists r f, g_adjoint h = Ok r /\
  iso h f r /\ ginputs r = map f (goutputs h) /\ goutputs r = map f (ginputs h) /\
  zinv r /\ io_ok r /\ qubs_ok r /\ forall i y, val r y i = Cconj (val h i y).
Proof. exact adjoint_val. Qed.
Print Assumptions C30_adjoint.
Example C30_case : zinv ex_two /\ io_ok ex_two /\ exists r, g_adjoint ex_two = Ok r /\ map (vty r) (vertices r) = map (vty ex_two) (vertices ex_two) /\ this (phase r 2) = (7 # 4)%Q.
Proof.
  split; [apply zinvb_ok; vm_compute; reflexivity|]. split; [apply io_okb_ok; vm_compute; reflexivity|]. eexists. split; [vm_compute; reflexivity|vm_compute; auto].
Qed.

(** [amp c t]: amplitude of bit t in the state named by the character c;
    [slots s]: the positions of s other than '/'; [rank s j]: how many '/'
    come before position j. The sum runs over the bits of the plugged wires. *)
Theorem C42_apply_state : forall s g, zinv g -> io_ok g -> length s = length (ginputs g) -> Forall known s ->
  exists r, apply_state s g = Ok r /\ zinv r /\ io_ok r /\ length (ginputs r) = length (filter slash s) /\ goutputs r = goutputs g /\
    forall i y, (val r i y = sumv (slots s) (fun w => cprod (fun j => amp (nth j s "/"%char) (w j)) (slots s) * val g w y) (fun j => i (rank s j)))%C.
Proof. exact apply_state_val. Qed.
Print Assumptions C42_apply_state.
Theorem C42_apply_effect : forall s g, zinv g -> io_ok g -> length s = length (goutputs g) -> Forall known s ->
  exists r, apply_effect s g = Ok r /\ zinv r /\ io_ok r /\ length (goutputs r) = length (filter slash s) /\ ginputs r = ginputs g /\
    forall i y, (val r i y = sumv (slots s) (fun w => cprod (fun j => amp (nth j s "/"%char) (w j)) (slots s) * val g i w) (fun j => y (rank s j)))%C.
Proof. exact apply_effect_val. Qed.
Print Assumptions C42_apply_effect.
Example C42_case : zinv ex_two /\ io_ok ex_two /\ Forall known ["-"; "/"]%char /\ length ["-"; "/"]%char = length (ginputs ex_two) /\ slots ["-"; "/"]%char = [0] /\
  exists r, apply_state ["-"; "/"]%char ex_two = Ok r /\ ginputs r = [1].
Proof.
  split; [apply zinvb_ok; vm_compute; reflexivity|]. split; [apply io_okb_ok; vm_compute; reflexivity|]. split; [repeat (apply Forall_cons; [unfold known; simpl; auto 10|]); apply Forall_nil|]. split; [reflexivity|].
  split; [reflexivity|]. eexists. split; [vm_compute; reflexivity|reflexivity].
Qed.
(** a string shorter than the list of inputs is accepted, and the inputs it does not reach are lost *)
Theorem C42_apply_state_refuted : exists s g r v, zinv g /\ io_ok g /\ Forall known s /\ length s < length (ginputs g) /\ apply_state s g = Ok r /\
  In v (ginputs g) /\ In v (vertices r) /\ vty r v = BOUNDARY /\ ~ In v (ginputs r) /\ ~ In v (goutputs r).
Proof. exact apply_short_refuted. Qed.
Print Assumptions C42_apply_state_refuted.

Theorem C50_merge : forall g h, wfg g -> zinv h -> qubs_ok h -> exists r f, merge g h = Ok (r, map f (vertices h)) /\
  inj_on f (vertices h) /\ vertices r = vertices g ++ map f (vertices h) /\ (forall v, In v (vertices h) -> ~ In (f v) (vertices g)) /\
  (forall u, In u (vertices g) -> vty r u = vty g u /\ phase r u = phase g u) /\
  (forall u v, In u (vertices g) -> In v (vertices g) -> edge_type r u v = edge_type g u v) /\
  (forall u v, In u (vertices g) -> In v (vertices h) -> edge_type r u (f v) = None) /\
  (forall v, In v (vertices h) -> vty r (f v) = vty h v /\ phase r (f v) = phase h v) /\
  (forall u v, In u (vertices h) -> In v (vertices h) -> edge_type r (f u) (f v) = edge_type h u v) /\
  ginputs r = ginputs g /\ goutputs r = goutputs g /\
  forall b, (to_number (gscalar h) * sem r b = sem g b * sem h (fun v => b (f v)))%C.
Proof. exact merge_use. Qed.
Print Assumptions C50_merge.
Example C50_case : zinv ex_two /\ qubs_ok ex_two /\ wfg ex_cup /\ exists r vs, merge ex_cup ex_two = Ok (r, vs) /\ vs = [2; 3; 4; 5; 6; 7].
Proof.
  split; [apply zinvb_ok; vm_compute; reflexivity|]. split; [apply qubs_okb_ok; vm_compute; reflexivity|]. split; [apply (zinvb_ok ex_cup); vm_compute; reflexivity|].
  eexists. eexists. split; vm_compute; reflexivity.
Qed.
(** the scalar of the other diagram is left behind *)
Theorem C50_merge_scalar_refuted : exists g h r vs, zinv g /\ zinv h /\ vertices h = [] /\ merge g h = Ok (r, vs) /\ (to_number (gscalar r) <> to_number (gscalar g) * to_number (gscalar h))%C.
Proof. exact merge_scalar_refuted. Qed.
Print Assumptions C50_merge_scalar_refuted.

Theorem C51_subgraph : forall h verts, zinv h -> qubs_ok h -> NoDup verts -> incl verts (vertices h) -> exists r f, subgraph_from_vertices h verts = Ok r /\
  inj_on f verts /\ vertices r = map f verts /\
  (forall v, In v verts -> vty r (f v) = vty h v /\ phase r (f v) = phase h v) /\
  (forall u v, In u verts -> In v verts -> edge_type r (f u) (f v) = edge_type h u v) /\
  ginputs r = [] /\ goutputs r = [] /\ to_number (gscalar r) = C1.
Proof. exact subgraph_use. Qed.
Print Assumptions C51_subgraph.
Example C51_case : zinv ex_two /\ qubs_ok ex_two /\ NoDup [3; 2; 5] /\ incl [3; 2; 5] (vertices ex_two) /\ exists r, subgraph_from_vertices ex_two [3; 2; 5] = Ok r /\ length (edges r) = 2.
Proof.
  split; [apply zinvb_ok; vm_compute; reflexivity|]. split; [apply qubs_okb_ok; vm_compute; reflexivity|]. split; [repeat constructor; simpl; intuition congruence|].
  split; [intros v H; vm_compute; simpl in H; tauto|]. eexists. split; vm_compute; reflexivity.
Qed.

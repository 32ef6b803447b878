(** Property theorems: architecture-aware elimination, pyzx/routing/steiner.py (C72, C73, C74). *)
From Coq Require Import List Bool Arith Lia.
From Verif Require Import Base LinModel LinProofs LinAlg LinFacts RouteModel RouteProofs RouteTree RouteEch RouteFW RouteTotal RouteExamples.
Import ListNotations.

(** [routed A m s]: the final matrix is [m] with the recorded row additions applied in order, and
    each of them is between two qubits that are joined in the architecture. *)
Theorem C72_steiner_gauss : forall so A full m s r, arch_ok A -> steiner_gauss so A full m = Ok (s, r) ->
  fst s = track_x row_add (snd s) m /\
  forall a b, In (a, b) (snd s) -> exists v w, (In (v, w) (a_es A) \/ In (w, v) (a_es A)) /\ a_qub A v = a /\ a_qub A w = b.
Proof. exact gauss_routed_spec. Qed.
Print Assumptions C72_steiner_gauss.
(** [eo] is the order of [list(set(edges))] *)
Theorem C72_rec_steiner_gauss : forall so eo fuel A order full m s, (forall l e, In e (eo l) -> In e l) ->
  rec_steiner_gauss so eo fuel A order full m = Ok s ->
  fst s = track_x row_add (snd s) m /\
  forall a b, In (a, b) (snd s) -> exists v w, (In (v, w) (a_es A) \/ In (w, v) (a_es A)) /\ a_qub A v = a /\ a_qub A w = b.
Proof. exact rec_routed_spec. Qed.
Print Assumptions C72_rec_steiner_gauss.
Example C72_ex : exists s r, arch_ok line3 /\ steiner_gauss sid line3 false m3 = Ok (s, r) /\ length (snd s) = 5.
Proof. eexists; eexists. split; [apply plain_ok |]. split; [exact m3_up | reflexivity]. Qed.
Example C72_ex_rec : exists s, rec_steiner_gauss sid eid 20 line3 [2; 1; 0] true m3 = Ok s /\ length (snd s) = 8.
Proof. eexists. split; [exact m3_rec | reflexivity]. Qed.

(** Without [full_reduce]: on a line or a complete architecture with the identical placement it
    returns, the matrix is in row echelon form and the rank is the number of pivots. *)
Theorem C73_line_or_complete : forall so A n m, placed A n -> (forall l x, In x (so l) <-> In x l) -> is_line A n \/ is_complete A n ->
  rows m = n -> rect (rows m) (cols m) m ->
  exists s k pcs, steiner_gauss so A false m = Ok (s, k) /\ echelon (fst s) pcs /\ length pcs = k /\ routed A m s.
Proof. exact steiner_total. Qed.
Print Assumptions C73_line_or_complete.
(** For any architecture: when no Steiner tree ends in a qubit that was not asked for. *)
Theorem C73_no_dangling : forall so A n m s k, placed A n -> (forall l x, In x (so l) -> In x l) -> no_dangling so A ->
  rect (rows m) (cols m) m -> steiner_gauss so A false m = Ok (s, k) ->
  exists pcs, echelon (fst s) pcs /\ length pcs = k.
Proof. exact steiner_echelon. Qed.
Print Assumptions C73_no_dangling.
(** The condition is needed: the breadth first search of steiner_tree uses all edges between the
    tree vertices, so that a Steiner point can become a leaf; its row then gets a one. *)
Theorem C73_upper_refuted : exists so A m s r, placed A 5 /\ (forall l x, In x (so l) <-> In x l) /\ rect 5 5 m /\
  steiner_gauss so A false m = Ok (s, r) /\ r = 5 /\ get (fst s) 1 0 = true /\ ~ (exists pcs, echelon (fst s) pcs).
Proof. exact upper_fails_placed. Qed.
Print Assumptions C73_upper_refuted.
Example C73_ex_line : forall n, placed (line n) n /\ is_line (line n) n.
Proof. intros n. split; [apply line_placed | apply line_line]. Qed.
Example C73_ex_complete : forall n, placed (full n) n /\ is_complete (full n) n.
Proof. intros n. split; [apply full_placed | apply full_complete]. Qed.
Example C73_ex_run : exists s, rect 3 3 m3 /\ no_dangling sid line3 /\ steiner_gauss sid line3 false m3 = Ok (s, 3) /\ length (snd s) = 5.
Proof.
  eexists. split; [split; [reflexivity | intros x [<- | [<- | [<- | []]]]; reflexivity] |].
  split; [apply (line_good sid (line 3) 3); [apply line_placed | apply line_line | auto] |].
  split; [exact m3_up | reflexivity].
Qed.

(** With [full_reduce] the matrix is not fully reduced: on two joined qubits the matrix
    [[1,1],[0,1]] is left as it is and the rank 2 is returned. *)
Theorem C74_full_reduce_refuted : exists so A m s r, arch_ok A /\ a_es A = [(0, 1)] /\ steiner_gauss so A true m = Ok (s, r) /\ r = 2 /\
  snd s = [] /\ (exists pcs, echelon (fst s) pcs) /\ ~ (exists pcs, echelon (fst s) pcs /\ reduced (fst s) pcs).
Proof. exact full_reduce_fails. Qed.
Print Assumptions C74_full_reduce_refuted.

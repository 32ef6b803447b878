(** Property theorems about the multigraph backend. *)
From Coq Require Import Reals ZArith QArith Qcanon List Bool Arith Lia Permutation.
From Verif Require Import CNum Base ScalarModel GraphModel GraphProofs GraphSem GraphOps MultiModel MultiProofs MultiFacts MultiList MultiEx.
Import ListNotations.
Open Scope C_scope.

(** ** C34 *)
(** Every store built by calls that return keeps the two entries of a pair the same
    object, different pairs apart, and no negative counts. *)
Theorem C34_histories : forall h g, mreach h g -> mwf h g /\ mfresh g.
Proof. exact mreach_ok. Qed.
Print Assumptions C34_histories.
(** add_edge between two different vertices (or where nothing is simplified) returns;
    the value is that of the diagram with the wire added times sqrt(2)^-(k - k mod 2),
    where k counts the Hadamard wires between spiders of one colour (the plain wires
    between spiders of different colours) including the new one. *)
Theorem C34_add_edge : forall s t ty h g, mwf h g -> In s (mverts g) -> In t (mverts g) -> (s <> t \/ mauto g && spider g s && spider g t = false) ->
  exists h' g', m_add_edge s t ty (h, g) = Ok (h', g') /\ mwf h' g' /\ minputs g' = minputs g /\ moutputs g' = moutputs g /\
  let k := cancelling g s t (plus1 ty (cur h g s t)) in
  forall b, dval (mview h' g') b = sq2p (- (k - k mod 2)) * dval (add_wire s t ty (mview h g)) b.
Proof. exact add_edge_value. Qed.
Print Assumptions C34_add_edge.
(** So the value is right when no two wires cancel ... *)
Theorem C34_exact : forall s t ty h g, mwf h g -> In s (mverts g) -> In t (mverts g) -> (s <> t \/ mauto g && spider g s && spider g t = false) ->
  (dcnt (add_wire s t ty (mview h g)) s t (if vtype_eqb (tyof g s) (tyof g t) then HADAMARD else SIMPLE) <= 1)%nat ->
  exists h' g', m_add_edge s t ty (h, g) = Ok (h', g') /\ forall b, dval (mview h' g') b = dval (add_wire s t ty (mview h g)) b.
Proof.
  intros s t ty h g W S T ST K. destruct (add_edge_value s t ty h g W S T ST) as (h' & g' & E & _ & _ & _ & V). exists h', g'. split; [exact E|]. intros b. rewrite V.
  assert (X : (cancelling g s t (plus1 ty (cur h g s t)) = 0 \/ cancelling g s t (plus1 ty (cur h g s t)) = 1)%Z).
  { unfold cancelling. destruct (mauto g && spider g s && spider g t); [|auto]. pose proof (cur_nonneg h g s t W) as NN. pose proof (plus1_nonneg ty _ NN) as [N1 N2]. cbn [add_wire dcnt mview] in K. rewrite pair_hit_st in K. cbn [andb] in K. rewrite <- ecount_plus in K by exact NN.
    unfold ecount in K. destruct (vtype_eqb (tyof g s) (tyof g t)); lia. }
  destruct X as [-> | ->]; [change (- (0 - 0 mod 2))%Z with 0%Z|change (- (1 - 1 mod 2))%Z with 0%Z]; rewrite sq2p_0; ring.
Qed.
Print Assumptions C34_exact.
(** ... and wrong when two Hadamard wires between Z spiders do. *)
Theorem C34_hopf_scalar_refuted : exists h g h' g' b, mreach h g /\ m_add_edge 0 1 HADAMARD (h, g) = Ok (h', g') /\ dval (mview h' g') b <> dval (add_wire 0 1 HADAMARD (mview h g)) b.
Proof. exact hopf_scalar_wrong. Qed.
Print Assumptions C34_hopf_scalar_refuted.
(** A self-loop on a spider always raises while simplification is on. *)
Theorem C34_self_loop_raises : forall s ty h g, mwf h g -> In s (mverts g) -> mauto g = true -> spider g s = true -> m_add_edge s s ty (h, g) = Err KeyError.
Proof. exact add_loop_raises. Qed.
Print Assumptions C34_self_loop_raises.
Theorem C34_self_loop_refuted : exists h g s ty, mreach h g /\ In s (mverts g) /\ m_add_edge s s ty (h, g) = Err KeyError.
Proof. exact loop_raises_case. Qed.
Print Assumptions C34_self_loop_refuted.
(** With simplification off add_edge adds exactly one wire to edges() and to num_edges();
    self-loops included. *)
Theorem C34_add_listed : forall s t ty h g, mwf h g -> In s (mverts g) -> In t (mverts g) -> mauto g = false ->
  exists h' g', m_add_edge s t ty (h, g) = Ok (h', g') /\ mwf h' g' /\ mauto g' = false /\ mverts g' = mverts g /\ mnedges g' = (mnedges g + 1)%Z /\ Permutation (m_edges h' g') (mkwire s t ty :: m_edges h g).
Proof. exact add_edge_list. Qed.
Print Assumptions C34_add_listed.
(** remove_edge of a listed wire removes it once; otherwise it raises. *)
Theorem C34_remove_listed : forall s t ty h g, mwf h g -> In (mkwire s t ty) (m_edges h g) ->
  exists h' g', m_remove_edge s t ty (h, g) = Ok (h', g') /\ mwf h' g' /\ mframe g g' /\ mnedges g' = (mnedges g - 1)%Z /\ Permutation (m_edges h g) (mkwire s t ty :: m_edges h' g').
Proof. exact remove_edge_list. Qed.
Print Assumptions C34_remove_listed.
Theorem C34_remove_absent : forall s t ty h g, mwf h g -> ~ In (mkwire s t ty) (m_edges h g) -> m_remove_edge s t ty (h, g) = Err (match mref g s t with None => KeyError | Some _ => ValueError end).
Proof. exact remove_edge_absent. Qed.
Print Assumptions C34_remove_absent.
(** set_edge_type of a listed wire changes the type of one copy of it. *)
Theorem C34_retype_listed : forall s t ty ty' h g, mwf h g -> In (mkwire s t ty) (m_edges h g) ->
  exists h', m_set_edge_type s t ty ty' (h, g) = Ok (h', g) /\ mwf h' g /\ exists rest, Permutation (m_edges h g) (mkwire s t ty :: rest) /\ Permutation (m_edges h' g) (mkwire s t ty' :: rest).
Proof. exact set_edge_type_list. Qed.
Print Assumptions C34_retype_listed.
(** num_edges() still counts wires that the simplification has cancelled. *)
Theorem C34_num_edges_refuted : exists h g, mreach h g /\ m_edges h g = [] /\ mnedges g = 2%Z.
Proof. exact num_edges_wrong. Qed.
Print Assumptions C34_num_edges_refuted.

(** two Z spiders joined by a Hadamard wire, to which a plain one is added; a self-loop
    stored with simplification off *)
Example C34_case : mwf (fst mjoined) (snd mjoined) /\ mauto (snd mjoined) = true /\ spider (snd mjoined) 0 = true /\ m_edges (fst mjoined) (snd mjoined) = [(0%nat, 1%nat, HADAMARD)] /\
  (dcnt (add_wire 0 1 SIMPLE (mview (fst mjoined) (snd mjoined))) 0 1 HADAMARD <= 1)%nat /\
  (exists h g, m_add_edge 0 1 SIMPLE mjoined = Ok (h, g) /\ m_edges h g = [(0%nat, 1%nat, SIMPLE); (0%nat, 1%nat, HADAMARD)]) /\
  (exists h g, m_add_edge 0 0 HADAMARD (fst mjoined, m_set_auto false (snd mjoined)) = Ok (h, g) /\ m_edges h g = [(0%nat, 1%nat, HADAMARD); (0%nat, 0%nat, HADAMARD)]).
Proof.
  split; [apply mreach_ok, mjoined_reach|]. split; [vm_compute; reflexivity|]. split; [vm_compute; reflexivity|]. split; [vm_compute; reflexivity|]. split; [vm_compute; lia|].
  split; eexists; eexists; (split; [vm_compute; reflexivity|vm_compute; reflexivity]).
Qed.

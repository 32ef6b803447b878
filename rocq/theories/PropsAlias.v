(** Property theorems about clones. *)
From Coq Require Import Reals ZArith QArith Qcanon List Bool Arith.
From Verif Require Import CNum Base ScalarModel GraphModel AliasModel AliasProofs AliasFacts AliasEx MultiModel MultiFacts MultiEx.
Import ListNotations.

(** ** C31 *)
(** Every object a program can make can be observed, and an edit of it acts on what is
    observed as the edit of the value. *)
Theorem C31_edit : forall s e, made s -> exists x, observe s = Some x /\ match p_edit e x with Ok x' => exists s', a_edit e s = Ok s' /\ observe s' = Some x' | Err er => a_edit e s = Err er end.
Proof. exact edit_value. Qed.
Print Assumptions C31_edit.
(** clone() returns; the clone shows the graph, the scalar and the vertex data of the
    original but no grounds and no variable types.  After any interleaved history of
    edits of the two objects each shows what its own edits make of it. *)
Theorem C31_isolated : forall H o x, made (H, o) -> observe (H, o) = Some x -> exists H1 c, a_clone (H, o) = Ok (H1, c) /\
  observe (H1, o) = Some x /\ observe (H1, c) = Some (mkObs (og x) [] [] (ovd x)) /\
  forall hs, match prun (own false hs) x, prun (own true hs) (mkObs (og x) [] [] (ovd x)) with
  | Ok y1, Ok y2 => exists H2 o2 c2, run2 hs (H1, o, c) = Ok (H2, o2, c2) /\ observe (H2, o2) = Some y1 /\ observe (H2, c2) = Some y2
  | _, _ => exists e, run2 hs (H1, o, c) = Err e
  end.
Proof. exact clone_isolated. Qed.
Print Assumptions C31_isolated.
(** Without grounds and variable types the clone shows the same as the original. *)
Theorem C31_same : forall H o x, made (H, o) -> observe (H, o) = Some x -> ogr x = [] -> ovt x = [] -> exists H1 c, a_clone (H, o) = Ok (H1, c) /\ observe (H1, c) = observe (H, o).
Proof. exact clone_same. Qed.
Print Assumptions C31_same.
(** In general it does not: grounds are lost, and so are variable types. *)
Theorem C31_grounds_refuted : exists H o x H1 c y, made (H, o) /\ observe (H, o) = Some x /\ a_clone (H, o) = Ok (H1, c) /\ observe (H1, c) = Some y /\ ogr x = [0%nat] /\ ogr y = [].
Proof. exact clone_grounds. Qed.
Print Assumptions C31_grounds_refuted.
Theorem C31_variable_types_refuted : exists H o x H1 c y, made (H, o) /\ observe (H, o) = Some x /\ a_clone (H, o) = Ok (H1, c) /\ observe (H1, c) = Some y /\ ovt x = [(0%nat, true)] /\ ovt y = [].
Proof. exact clone_vartypes. Qed.
Print Assumptions C31_variable_types_refuted.
(** set_vdata on the clone changes the data of the original. *)
Theorem C31_vdata_refuted : exists H o H1 c H2 c2 x y, made (H, o) /\ a_clone (H, o) = Ok (H1, c) /\ a_set_vdata 0 7 6 (H1, c) = Ok (H2, c2) /\
  observe (H1, o) = Some x /\ observe (H2, o) = Some y /\ ovd x = [(0%nat, [(7%nat, 5%Z)])] /\ ovd y = [(0%nat, [(7%nat, 6%Z)])].
Proof. exact clone_vdata. Qed.
Print Assumptions C31_vdata_refuted.
(** Only for a vertex that has data already is this so. *)
Theorem C31_vdata_fresh : forall H o x H1 c v k z H2 c2, made (H, o) -> observe (H, o) = Some x -> a_clone (H, o) = Ok (H1, c) -> dget v (ovd x) = None ->
  a_set_vdata v k z (H1, c) = Ok (H2, c2) -> observe (H2, o) = Some x /\ observe (H2, c2) = Some (mkObs (og x) [] [] (dset v [(k, z)] (ovd x))).
Proof. exact clone_vdata_fresh. Qed.
Print Assumptions C31_vdata_fresh.
(** Multigraph: the clone lists the same wires, but it shares the Edge objects. *)
Theorem C31_multigraph_same : forall h g, m_edges h (m_clone g) = m_edges h g /\ mview h (m_clone g) = mview h g /\ minputs (m_clone g) = minputs g /\ moutputs (m_clone g) = moutputs g /\ mauto (m_clone g) = true.
Proof. exact m_clone_same. Qed.
Print Assumptions C31_multigraph_same.
Theorem C31_multigraph_refuted : exists h g h' c', mreach h g /\ m_remove_edge 0 1 HADAMARD (h, m_clone g) = Ok (h', c') /\ m_edges h g = [(0%nat, 1%nat, HADAMARD)] /\ m_edges h' g = [].
Proof. exact m_clone_shares. Qed.
Print Assumptions C31_multigraph_refuted.

(** two joined spiders; the clone loses a vertex while the original gains one and a phase *)
Example C31_case : exists H o x y1 y2, made (H, o) /\ observe (H, o) = Some x /\ prun (own false alias_hist) x = Ok y1 /\ prun (own true alias_hist) (mkObs (og x) [] [] (ovd x)) = Ok y2 /\
  vertices (og x) = [0; 1]%nat /\ vertices (og y1) = [0; 1; 2]%nat /\ phase (og y1) 0 = Qcz 1 /\ vertices (og y2) = [1]%nat /\ phase (og y2) 1 = 0%Qc.
Proof. exact alias_case. Qed.

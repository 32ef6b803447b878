(** Property theorems about the interactive rules of basicrules.py (C60, C61, C62). *)
From Coq Require Import Reals ZArith QArith Qcanon List Bool Arith Lia.
From Verif Require Import LinModel PermModel CNum Base ScalarModel GraphModel GraphSem GraphProofs GraphOps RulesModel RuleLemmas InvProofs
  RunEx BasicRulesModel BasicColor BasicFuse BasicPi StrongComp BasicCopy BasicEx.
Import ListNotations.
Open Scope nat_scope.

(** ** C60: color_change, fuse and remove_id *)
Theorem C60_color_change : forall v g, zxok g -> bdeg g -> In v (vertices g) ->
  exists g', color_change v g = Ok (vertex_is_zx (vty g v), g') /\ zxok g' /\ bdeg g' /\ same_map g g'.
Proof. exact color_change_ok. Qed.
Print Assumptions C60_color_change.
(** color_change_diagram swaps the colours of all spiders; this applies a Hadamard to every
    boundary bit. *)
Theorem C60_color_change_diagram : forall g, zxok g -> bdeg g -> exists g', color_change_diagram g = Ok g' /\ zxok g' /\ bdeg g' /\
  vertices g' = vertices g /\ ginputs g' = ginputs g /\ goutputs g' = goutputs g /\ gphase g' = gphase g /\ gscalar g' = gscalar g /\
  (forall v, In v (vertices g) -> vty g' v = toggle_vertex (vty g v)) /\ (forall u v, edge_type g' u v = edge_type g u v) /\
  forall x, sem g' x = had_all (bnd g) (sem g) x.
Proof. exact color_diagram_ok. Qed.
Print Assumptions C60_color_change_diagram.
(** fuse applies to two spiders of one colour on a plain wire and removes the second *)
Theorem C60_fuse : forall v1 v2 g, zxok g -> bdeg g -> In v1 (vertices g) -> exists b g', fuse v1 v2 g = Ok (b, g') /\ zxok g' /\ bdeg g' /\ same_map g g' /\
  b = fusable g v1 v2 /\ if b then vertices g' = keep [v2] g else g' = g.
Proof. exact fuse_ok. Qed.
Print Assumptions C60_fuse.
Theorem C60_remove_id : forall v g, zxok g -> bdeg g -> In v (vertices g) -> exists b g', remove_id v g = Ok (b, g') /\ zxok g' /\ bdeg g' /\ same_map g g' /\
  b = (Nat.eqb (length (neighbors g v)) 2 && qeqb (phase g v) 0%Qc)%bool /\ if b then vertices g' = keep [v] g else g' = g.
Proof. exact remove_id_ok. Qed.
Print Assumptions C60_remove_id.
Example C60_case : gok2 bx_fuse /\ (exists g', fuse 1 2 bx_fuse = Ok (true, g') /\ vertices g' = [0; 1; 3; 4; 5]) /\
  (exists g', remove_id 3 bx_fuse = Ok (true, g') /\ vertices g' = [0; 1; 2; 4; 5]) /\
  (exists g', color_change 5 bx_fuse = Ok (true, g') /\ vty g' 5 = ZSP) /\
  exists g', color_change_diagram bx_fuse = Ok g' /\ vty g' 1 = XSP.
Proof. exact bx_fuse_run. Qed.

(** ** C61: strong_comp, copy_X and copy_Z *)
Theorem C61_strong_comp : forall v1 v2 g, zxok g -> bdeg g -> In v1 (vertices g) -> In v2 (vertices g) ->
  exists g', strong_comp v1 v2 g = Ok (composable g v1 v2, g') /\ zxok g' /\ bdeg g' /\ same_map g g' /\ same_bnd g g' /\
    if composable g v1 v2
    then exists N, vertices g' = keep [v1; v2] g ++ N /\ length N + 2 = length (neighbors g v1) + length (neighbors g v2)
    else g' = g.
Proof. exact strong_comp_ok. Qed.
Print Assumptions C61_strong_comp.
Theorem C61_copy_X : forall v g, zxok g -> bdeg g -> In v (vertices g) ->
  exists g', copy_X v g = Ok (copyable XSP g v, g') /\ zxok g' /\ bdeg g' /\ same_map g g' /\ same_bnd g g' /\
  if copies XSP g v then exists w N, neighbors g v = [w] /\ vertices g' = keep [v; w] g ++ N /\ length N + 1 = length (neighbors g w)
  else g' = g.
Proof. exact copy_X_ok. Qed.
Print Assumptions C61_copy_X.
Theorem C61_copy_Z : forall v g, zxok g -> bdeg g -> In v (vertices g) ->
  exists g', copy_Z v g = Ok (copyable ZSP g v, g') /\ zxok g' /\ bdeg g' /\ same_map g g' /\ same_bnd g g'.
Proof. exact copy_Z_ok. Qed.
Print Assumptions C61_copy_Z.
(** check_copy_Z changes the graph twice, and puts it back *)
Theorem C61_check_copy_Z : forall v g, zxok g -> bdeg g -> In v (vertices g) ->
  exists g', check_copy_Z v g = Ok (copyable ZSP g v, g') /\ zxok g' /\ bdeg g' /\ same_map g g' /\
    vertices g' = vertices g /\ (forall u, In u (vertices g) -> vty g' u = vty g u) /\ (forall u w, edge_type g' u w = edge_type g u w) /\
    (forall u, phase g' u = phase g u) /\ gscalar g' = gscalar g.
Proof. exact check_copy_Z_ok. Qed.
Print Assumptions C61_check_copy_Z.
(** copy_X returns True when the phase of the neighbour is not Pauli, but does nothing. *)
Theorem C61_copy_X_refuted : exists v g, zxok g /\ bdeg g /\ In v (vertices g) /\ copy_X v g = Ok (true, g).
Proof. exact copy_X_nothing_refuted. Qed.
Print Assumptions C61_copy_X_refuted.
Example C61_case_comp : gok2 bx_comp /\ exists g', strong_comp 2 3 bx_comp = Ok (true, g') /\ length (vertices g') = 8 /\
  gscalar g' = s_add_phase 1%Qc (s_add_power 1 scalar_init).
Proof. exact bx_comp_run. Qed.
Example C61_case_copy : gok2 bx_copy3 /\ exists g', copy_X 0 bx_copy3 = Ok (true, g') /\ length (vertices g') = 6.
Proof. exact bx_copy3_run. Qed.
Example C61_case_copy_Z : gok2 bx_copy3z /\ exists g', copy_Z 0 bx_copy3z = Ok (true, g') /\ length (vertices g') = 6.
Proof. exact bx_copy3z_run. Qed.

(** ** C62: pi_commute_Z and pi_commute_X *)
(** When all legs can take up the pi, the rule keeps the map up to the factor e^{i alpha}, alpha the
    phase of the spider: the code does not put that factor into the scalar. *)
Theorem C62_pi_commute_Z : forall v g, zxok g -> bdeg g -> In v (vertices g) -> vty g v = ZSP -> pi_legs g v ->
  exists g', pi_commute_Z v g = Ok (true, g') /\ zxok g' /\ bdeg g' /\ ginputs g' = ginputs g /\ goutputs g' = goutputs g /\
  vertices g' = vertices g /\ (forall u, vty g' u = vty g u) /\ (forall u w, edge_type g' u w = edge_type g u w) /\
  forall b, sem g b = (cexp (phase g v) * sem g' b)%C.
Proof. exact pi_Z_ok. Qed.
Print Assumptions C62_pi_commute_Z.
Theorem C62_pi_commute_X : forall v g, zxok g -> bdeg g -> In v (vertices g) -> vty g v = XSP -> pi_legs_X g v ->
  exists g', pi_commute_X v g = Ok (true, g') /\ zxok g' /\ bdeg g' /\ ginputs g' = ginputs g /\ goutputs g' = goutputs g /\
  forall b, sem g b = (cexp (phase g v) * sem g' b)%C.
Proof. exact pi_X_ok. Qed.
Print Assumptions C62_pi_commute_X.
Theorem C62_exact_refuted : exists v g g', zxok g /\ bdeg g /\ In v (vertices g) /\ pi_commute_Z v g = Ok (true, g') /\ ~ same_map g g'.
Proof. exact pi_commute_refuted. Qed.
Print Assumptions C62_exact_refuted.
Example C62_case : gok2 bx_pi /\ vty bx_pi 0 = ZSP /\ exists g', pi_commute_Z 0 bx_pi = Ok (true, g') /\ phase g' 1 = 1%Qc.
Proof. split; [apply gok2_b; vm_compute; reflexivity|]. split; [reflexivity|]. vm_compute. eexists. split; reflexivity. Qed.

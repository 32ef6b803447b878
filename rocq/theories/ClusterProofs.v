(** mbqc.py: cluster_state. *)
From Coq Require Import Reals ZArith QArith Qcanon List Bool Arith Lia Lra Permutation Ring.
From Verif Require Import CNum Base ScalarModel ScalarProofs GraphModel GraphSem SumLemmas GraphProofs GraphOps RulesModel RuleLemmas
  SpiderProofs IsoProofs IdProofs LcompProofs PivotProofs PivotMatch GrowProofs StoreProofs InvProofs BfixProofs TotalProofs AmpProofs ZXFacts.
From Verif Require ExtractNbrs BackRound.
From Verif Require Import CongModel CongProofs GadgetizeModel GadgetizeProofs MbqcModel MbqcProofs MbqcPauli ClusterModel.
Import ListNotations.
Open Scope nat_scope.

(** ** Adding vertices *)
Lemma add_vertex_next : forall t q r p g g' v, add_vertex t q r p g = (g', v) -> v = gvindex g /\ gvindex g' = S v.
Proof. intros t q r p g g' v H. unfold add_vertex in H. cbn [add_vertices fst seq fold_left] in H. injection H as <- <-. split; auto. transitivity (gvindex g + 1); [destruct (qeqb _ 0%Qc); reflexivity|lia]. Qed.
Lemma newv_any : forall t q r g g' v, t = ZSP \/ t = BOUNDARY -> wfg g -> noloop g -> add_vertex t q r None g = (g', v) ->
  wfg g' /\ noloop g' /\ v = gvindex g /\ gvindex g' = S v /\ ~ In v (vertices g) /\ vertices g' = vertices g ++ [v] /\ (forall a b, edge_type g' a b = edge_type g a b) /\ (forall w, edge_type g v w = None) /\
  vty g' v = t /\ (forall w, w <> v -> vty g' w = vty g w) /\ (qubit g' v = q /\ row g' v = r) /\ (forall w, w <> v -> qubit g' w = qubit g w /\ row g' w = row g w) /\
  forall x, integL (vertices g') g' x = integL (vertices g) g x.
Proof.
  intros t q r g g' v Ht W NL A. destruct (add_vertex_next _ _ _ _ _ _ _ A) as [N1 N2].
  assert (A' : add_vertex t q r (Some 0%Qc) g = (g', v)) by (destruct Ht as [-> | ->]; exact A). clear A. rename A' into A.
  assert (HI := fun x => integL_add_vertex _ _ _ _ _ _ _ x W A). assert (PO := BackRound.add_vertex_pos _ _ _ _ _ _ _ A).
  destruct (add_vertex_spec _ _ _ _ _ _ _ W A) as [Ev [W' [V [ET [NB [T [P [I0 [O0 S]]]]]]]]].
  assert (Fv : ~ In v (vertices g)) by (apply vertices_pv_fresh; auto).
  split; auto. split; [intros u; rewrite ET; auto|]. split; auto. split; auto. split; auto. split; auto. split; auto. split; [intros w; exact (proj1 (edge_none_out g v w W Fv))|].
  split; [rewrite T, Nat.eqb_refl; auto|]. split; [intros w X; rewrite T, (proj2 (Nat.eqb_neq w v)) by auto; auto|].
  split; [unfold qubit, row; destruct (PO v) as [-> ->]; rewrite Nat.eqb_refl; auto|].
  split; [intros w X; unfold qubit, row; destruct (PO w) as [-> ->]; rewrite (proj2 (Nat.eqb_neq w v)) by auto; auto|].
  intros x. rewrite HI. rewrite eph_0 by auto. destruct (vtype_eqb t BOUNDARY); ring.
Qed.
Lemma frame_pos : forall g g' u, same_frame g g' -> qubit g' u = qubit g u /\ row g' u = row g u.
Proof. intros g g' u [_ [_ [_ [_ [_ [Q R]]]]]]. unfold qubit, row. rewrite Q, R. auto. Qed.
Lemma attach_ok : forall k q r g, wfg g -> noloop g -> In k (vertices g) -> vty g k = ZSP ->
  exists g' v, attach k q r g = Ok (g', v) /\ wfg g' /\ noloop g' /\ v = gvindex g /\ gvindex g' = S v /\ ~ In v (vertices g) /\ vertices g' = vertices g ++ [v] /\
    (forall a b, edge_type g' a b = if pair_hit k v a b then Some SIMPLE else edge_type g a b) /\ (forall w, edge_type g v w = None) /\
    vty g' v = BOUNDARY /\ (forall w, w <> v -> vty g' w = vty g w) /\ (qubit g' v = q /\ row g' v = r) /\ (forall w, w <> v -> qubit g' w = qubit g w /\ row g' w = row g w) /\
    forall x, integL (vertices g') g' x = (integL (vertices g) g x * dlt (x k) (x v))%C.
Proof.
  intros k q r g W NL Hk Tk. unfold attach. destruct (add_vertex BOUNDARY q r None g) as [g1 v] eqn:A.
  destruct (newv_any _ _ _ _ _ _ (or_intror eq_refl) W NL A) as [W1 [NL1 [Ev [Nx [Fv [V1 [E1 [En [Tv [To [Pv [Po X1]]]]]]]]]]]].
  assert (D : k <> v) by (intros ->; auto).
  destruct (newe k v SIMPLE g1 W1 NL1 D) as [g2 [B [W2 [NL2 [F [E2 X2]]]]]]; [rewrite V1, in_app_iff; auto|rewrite V1, in_app_iff; simpl; auto|rewrite E1, (wf_sym g W); auto|].
  rewrite B. cbn [bind]. exists g2, v. split; auto. split; auto. split; auto. split; auto.
  split; [destruct F as [_ [_ [_ [_ [-> _]]]]]; auto|]. split; auto. split; [rewrite <- V1; apply F|].
  split; [intros a b; rewrite E2, E1; auto|]. split; auto. split; [rewrite (same_frame_vty g1 g2); auto|]. split; [intros w Dw; rewrite (same_frame_vty g1 g2); auto|].
  split; [destruct (frame_pos g1 g2 v F) as [-> ->]; auto|]. split; [intros w Dw; destruct (frame_pos g1 g2 w F) as [-> ->]; auto|].
  intros x. replace (vertices g2) with (vertices g1) by (symmetry; apply F). rewrite X2, X1. f_equal. unfold nw, isX. rewrite Tv, To, Tk by auto. reflexivity.
Qed.

(** ** The grid of spiders *)
Definition zgrid (N : nat) (g : graph) : Prop :=
  wfg g /\ noloop g /\ gvindex g = N /\ vertices g = seq 0 N /\ (forall a b, edge_type g a b = None) /\ (forall k, k < N -> vty g k = ZSP) /\ forall x, integL (vertices g) g x = C1.
Lemma zgrid_add : forall N q r g g' v, zgrid N g -> add_vertex ZSP q r None g = (g', v) ->
  zgrid (S N) g' /\ v = N /\ (qubit g' N = q /\ row g' N = r) /\ forall k, k <> N -> qubit g' k = qubit g k /\ row g' k = row g k.
Proof.
  intros N q r g g' v [W [NL [Nx [V [E [T X]]]]]] A. destruct (newv_any _ _ _ _ _ _ (or_introl eq_refl) W NL A) as [W1 [NL1 [Ev [Nx1 [Fv [V1 [E1 [En [Tv [To [Pv [Po X1]]]]]]]]]]]].
  assert (v = N) by congruence. subst v. rewrite H in *. split; [|auto]. split; auto. split; auto. split; [auto|]. split; [rewrite V1, V, seq_S; auto|]. split; [intros a b; rewrite E1; auto|].
  split; [intros k L; destruct (Nat.eq_dec k N) as [->|D]; auto; rewrite To by auto; apply T; lia|]. intros x. rewrite X1. auto.
Qed.
Lemma zgrid_empty : zgrid 0 empty_graph.
Proof.
  split; [apply zx_wf, zi_zx, zinvb_ok; vm_compute; reflexivity|]. split; [intros v; reflexivity|]. split; [reflexivity|]. split; [reflexivity|]. split; [reflexivity|]. split; [intros k L; lia|].
  intros x. unfold integL. cbn [vertices empty_graph gadj dkeys map cprod pprod gscalar]. unfold to_number. cbn. rewrite cexp_0, sq2p_0. change (R1, R0) with C1. ring.
Qed.
Lemma grid_row_ok : forall n q N g, zgrid N g -> exists g', grid_row n q g = (g', seq N n) /\ zgrid (N + n) g' /\
  (forall r, r < n -> qubit g' (N + r) = even q /\ row g' (N + r) = even r) /\ forall k, k < N -> qubit g' k = qubit g k /\ row g' k = row g k.
Proof.
  intros n q N g Z. unfold grid_row. induction n as [|n IH].
  - exists g. rewrite Nat.add_0_r. split; [reflexivity|]. split; auto. split; [intros r L; lia|auto].
  - destruct IH as [g' [E [Z' [P1 P2]]]]. rewrite seq_S, fold_left_app, E. cbn [fold_left fst snd plus].
    destruct (add_vertex ZSP (even q) (even n) None g') as [g2 v] eqn:A. destruct (zgrid_add _ _ _ _ _ _ Z' A) as [Z2 [-> [Pn Po]]].
    exists g2. split; [rewrite seq_S; reflexivity|]. rewrite Nat.add_succ_r. split; auto. split.
    + intros r L. destruct (Nat.eq_dec r n) as [->|D]; auto. destruct (Po (N + r)) as [-> ->]; [lia|]. apply P1. lia.
    + intros k L. destruct (Po k) as [-> ->]; [lia|]. apply P2; auto.
Qed.
Lemma grid_ok : forall m n, exists g, grid m n empty_graph = (g, map (fun q => seq (q * n) n) (seq 0 m)) /\ zgrid (m * n) g /\
  forall q r, q < m -> r < n -> qubit g (q * n + r) = even q /\ row g (q * n + r) = even r.
Proof.
  intros m n. unfold grid. induction m as [|m IH].
  - exists empty_graph. split; [reflexivity|]. split; [apply zgrid_empty|]. intros q r L. lia.
  - destruct IH as [g [E [Z P]]]. rewrite seq_S, fold_left_app, E. cbn [fold_left fst snd plus]. destruct (grid_row_ok n m _ g Z) as [g' [E' [Z' [P1 P2]]]]. rewrite E'.
    exists g'. split; [rewrite map_app; reflexivity|]. split; [replace (S m * n) with (m * n + n) by lia; auto|].
    intros q r Lq Lr. destruct (Nat.eq_dec q m) as [->|D]; auto. destruct (P2 (q * n + r)) as [-> ->]; [nia|]. apply P; lia.
Qed.
Lemma cell_ok : forall m n q r, q < m -> r < n -> cell (map (fun q => seq (q * n) n) (seq 0 m)) q r = Ok (q * n + r).
Proof.
  intros m n q r Lq Lr. unfold cell. assert (E1 : nth_error (map (fun q => seq (q * n) n) (seq 0 m)) q = Some (seq (q * n) n)).
  { erewrite map_nth_error; [reflexivity|]. rewrite (nth_error_nth' (seq 0 m) 0) by (rewrite seq_length; auto). rewrite seq_nth by auto. reflexivity. }
  rewrite E1. cbn [of_opt bind]. rewrite (nth_error_nth' (seq (q * n) n) 0) by (rewrite seq_length; auto). rewrite seq_nth by auto. reflexivity.
Qed.
(** the cells in the order of the two loops *)
Lemma cells_list : forall n m, 0 < n -> list_prod (seq 0 m) (seq 0 n) = map (fun k => (k / n, k mod n)) (seq 0 (m * n)).
Proof.
  intros n m Ln. induction m as [|m IH]; [reflexivity|]. rewrite seq_S. replace (S m * n) with (m * n + n) by lia. rewrite seq_app, map_app, <- IH.
  assert (LA : forall (l l' k : list nat), list_prod (l ++ l') k = list_prod l k ++ list_prod l' k) by (induction l as [|a l IHl]; intros; auto; cbn [app list_prod]; rewrite IHl, app_assoc; auto).
  rewrite LA. f_equal. cbn [list_prod plus]. rewrite app_nil_r. 
  assert (SM : forall j s, map (fun y => (m, y)) (seq s j) = map (fun k => (k / n, k mod n)) (seq (m * n + s) j) \/ n < s + j).
  { induction j as [|j IHj]; intros s; [left; reflexivity|]. destruct (le_lt_dec (s + S j) n) as [L|L]; [left|right; auto]. cbn [seq map]. destruct (IHj (S s)) as [X|X]; [|lia]. rewrite X. replace (S (m * n + s)) with (m * n + S s) by lia.
    f_equal. f_equal; [rewrite Nat.div_add_l, Nat.div_small by lia; lia|rewrite Nat.add_comm, Nat.mod_add, Nat.mod_small by lia; auto]. }
  destruct (SM n 0) as [X|X]; [|lia]. rewrite X. f_equal. f_equal. lia.
Qed.

(** ** One cell *)
Lemma attach_opt : forall (c : bool) k q r g (inp outp : list nat), wfg g -> noloop g -> In k (vertices g) -> vty g k = ZSP ->
  exists g' i, (if c then let* (g, i) := attach k q r g in Ok (g, inp ++ [i], outp) else Ok (g, inp, outp)) = Ok (g', inp ++ (if c then [i] else []), outp) /\
    wfg g' /\ noloop g' /\ gvindex g <= gvindex g' /\ (forall u, In u (vertices g') <-> In u (vertices g) \/ (c = true /\ u = i)) /\
    (forall a b, edge_type g' a b = if c && pair_hit k i a b then Some SIMPLE else edge_type g a b) /\
    (c = true -> gvindex g <= i < gvindex g' /\ vty g' i = BOUNDARY /\ (qubit g' i = q /\ row g' i = r) /\ forall w, edge_type g i w = None) /\
    (forall w, w < gvindex g -> vty g' w = vty g w /\ qubit g' w = qubit g w /\ row g' w = row g w) /\
    forall x, integL (vertices g') g' x = (integL (vertices g) g x * (if c then dlt (x k) (x i) else C1))%C.
Proof.
  intros [] k q r g inp outp W NL Hk Tk.
  - destruct (attach_ok k q r g W NL Hk Tk) as [g' [v [A [W1 [NL1 [Ev [Nx1 [Fv [V1 [E1 [En [Tv [To [Pv [Po X1]]]]]]]]]]]]]]].
    exists g', v. rewrite A. cbn [bind]. split; auto. split; auto. split; auto. split; [lia|]. split; [intros u; rewrite V1, in_app_iff; simpl; intuition|]. split; auto. split; [intros _; split; [lia|auto]|].
    split; [intros w L; assert (w <> v) by lia; split; auto|auto].
  - exists g, 0. rewrite app_nil_r. split; auto. split; auto. split; auto. split; auto. split; [intros u; intuition discriminate|]. split; auto. split; [discriminate|]. split; auto. intros x. ring.
Qed.
Lemma hedge : forall (c : bool) s t g, wfg g -> noloop g -> (c = true -> s <> t /\ In s (vertices g) /\ In t (vertices g) /\ vty g s = ZSP /\ vty g t = ZSP /\ edge_type g s t = None) ->
  exists g', (if c then add_edge s t HADAMARD g else Ok g) = Ok g' /\ wfg g' /\ noloop g' /\ same_frame g g' /\
    (forall u v, edge_type g' u v = if c && pair_hit s t u v then Some HADAMARD else edge_type g u v) /\
    forall x, integL (vertices g) g' x = (integL (vertices g) g x * (if c then sq2p (-1) * sgn (x s && x t) else C1))%C.
Proof.
  intros [] s t g W NL H.
  - destruct (H eq_refl) as [D [Is [It [Ts [Tt E]]]]]. destruct (newh_any s t g W D Is It Ts Tt E) as [g' [A [W' [F [P [E' X]]]]]]. exists g'. split; auto. split; auto. split; [eapply noloop_pair; eauto|]. auto.
  - exists g. split; auto. split; auto. split; auto. split; [apply same_frame_refl|]. split; auto. intros x. ring.
Qed.
Lemma pair_hit_l : forall s t u v, pair_hit s t u v = true -> (u = s /\ v = t) \/ (u = t /\ v = s).
Proof. intros s t u v H. destruct (pair_hit_true _ _ _ _ H) as [[-> ->]|[-> ->]]; auto. Qed.

Section Cluster.
  Variables (m n : nat) (ins : list (nat * nat)).
  Hypothesis Hn : 0 < n.
  Let N := m * n.
  Definition isin (k : nat) : bool := existsb (fun p : nat * nat => Nat.eqb (fst p) (k / n) && Nat.eqb (snd p) (k mod n)) ins.
  Definition down (k : nat) : bool := Nat.ltb (k / n + 1) m.
  Definition right (k : nat) : bool := Nat.ltb (k mod n + 1) n.
  Definition links (k : nat) (x : assignment) : C := ((if down k then sq2p (-1) * sgn (x k && x (k + n)%nat) else C1) * (if right k then sq2p (-1) * sgn (x k && x (k + 1)%nat) else C1))%C.
  Definition wcell (O I : nat -> nat) (k : nat) (x : assignment) : C := (links k x * dlt (x k) (x (O k)) * (if isin k then dlt (x k) (x (I k)) else C1))%C.
  Record cinv (j : nat) (O I : nat -> nat) (g : graph) : Prop := mkcinv {
    c_wf : wfg g; c_nl : noloop g; c_nx : N <= gvindex g;
    c_in : forall u, In u (vertices g) <-> u < N \/ (exists k, k < j /\ u = O k) \/ (exists k, k < j /\ isin k = true /\ u = I k);
    c_z : forall k, k < N -> vty g k = ZSP /\ qubit g k = even (k / n) /\ row g k = even (k mod n);
    c_o : forall k, k < j -> N <= O k < gvindex g /\ vty g (O k) = BOUNDARY /\ qubit g (O k) = (even (k / n) - frac 4 5)%Qc /\ row g (O k) = (even (k mod n) + frac 4 5)%Qc /\
          forall u, edge_type g (O k) u = if Nat.eqb u k then Some SIMPLE else None;
    c_i : forall k, k < j -> isin k = true -> N <= I k < gvindex g /\ vty g (I k) = BOUNDARY /\ qubit g (I k) = (even (k / n) + frac 4 5)%Qc /\ row g (I k) = (even (k mod n) - frac 4 5)%Qc /\
          forall u, edge_type g (I k) u = if Nat.eqb u k then Some SIMPLE else None;
    c_e : forall a b, a < b -> b < N -> edge_type g a b <> None -> a < j;
    c_x : forall x, integL (vertices g) g x = cprod (fun k => wcell O I k x) (seq 0 j) }.
  Definition ext (O : nat -> nat) (j o : nat) : nat -> nat := fun k => if Nat.eqb k j then o else O k.
  Lemma ext_same : forall O j o, ext O j o j = o. Proof. intros. unfold ext. rewrite Nat.eqb_refl. auto. Qed.
  Lemma ext_lt : forall O j o k, k < j -> ext O j o k = O k. Proof. intros O j o k H. unfold ext. rewrite (proj2 (Nat.eqb_neq k j) (Nat.lt_neq k j H)). reflexivity. Qed.

  Lemma cell_step : forall j O I g inp outp, j < N -> cinv j O I g ->
    exists g' o i, cluster1 m n ins (map (fun q => seq (q * n) n) (seq 0 m)) (g, inp, outp) (j / n, j mod n) = Ok (g', inp ++ (if isin j then [i] else []), outp ++ [o]) /\
      cinv (S j) (ext O j o) (ext I j i) g'.
  Proof.
    intros j O I g inp outp Lj [W NL NX IN CZ CO CI CE CX].
    assert (Ln : n <> 0) by lia. assert (DM := Nat.div_mod j n Ln). assert (Lr := Nat.mod_upper_bound j n Ln). assert (Lq : j / n < m) by (apply Nat.div_lt_upper_bound; unfold N in Lj; lia).
    set (q := j / n) in *. set (r := j mod n) in *. assert (Ej : q * n + r = j) by lia.
    assert (Z : forall k, k < N -> In k (vertices g)) by (intros k L; apply IN; auto).
    assert (Dn : down j = true -> j + n < N). { unfold down. fold q. intros X. apply Nat.ltb_lt in X. unfold N. nia. }
    assert (Rn : right j = true -> j + 1 < N /\ 1 < n). { unfold right. fold r. intros X. apply Nat.ltb_lt in X. unfold N. nia. }
    assert (E0 : forall b, j < b -> b < N -> edge_type g j b = None). { intros b L1 L2. destruct (edge_type g j b) eqn:E; auto. exfalso. assert (Q : edge_type g j b <> None) by congruence. specialize (CE j b L1 L2 Q). lia. }
    destruct (hedge (down j) j (j + n) g W NL) as [g1 [A1 [W1 [NL1 [F1 [E1 X1]]]]]].
    { intros D. specialize (Dn D). split; [lia|]. split; auto. split; auto. split; [apply CZ; auto|]. split; [apply CZ; auto|]. apply E0; lia. }
    assert (VT1 : forall u, vty g1 u = vty g u) by (intros; apply same_frame_vty; auto). assert (V1 : vertices g1 = vertices g) by apply F1.
    destruct (hedge (right j) j (j + 1) g1 W1 NL1) as [g2 [A2 [W2 [NL2 [F2 [E2 X2]]]]]].
    { intros D. destruct (Rn D) as [R1 R2]. split; [lia|]. rewrite V1, !VT1. split; auto. split; auto. split; [apply CZ; auto|]. split; [apply CZ; auto|]. rewrite E1, pair_hit_false by (intros Q; injection Q; intros; lia). rewrite andb_false_r. apply E0; lia. }
    assert (F12 : same_frame g g2) by (eapply same_frame_trans; eauto). clear F1 F2.
    assert (VT2 : forall u, vty g2 u = vty g u) by (intros; apply same_frame_vty; auto). assert (V2 : vertices g2 = vertices g) by apply F12.
    assert (NX2 : gvindex g2 = gvindex g) by apply F12.
    assert (Tj : vty g2 j = ZSP) by (rewrite VT2; apply CZ; auto). assert (Hj2 : In j (vertices g2)) by (rewrite V2; auto).
    destruct (attach_ok j (even q - frac 4 5)%Qc (even r + frac 4 5)%Qc g2 W2 NL2 Hj2 Tj) as [g3 [o [A3 [W3 [NL3 [Eo [Nx3 [Fo [V3 [E3 [Eno [To [Too [Po [Poo X3]]]]]]]]]]]]]]].
    assert (Lo : N <= o) by (rewrite Eo, NX2; auto). assert (Hj3 : In j (vertices g3)) by (rewrite V3, in_app_iff; auto). assert (Tj3 : vty g3 j = ZSP) by (rewrite Too by lia; auto).
    destruct (attach_opt (isin j) j (even q + frac 4 5)%Qc (even r - frac 4 5)%Qc g3 inp (outp ++ [o]) W3 NL3 Hj3 Tj3) as [g4 [i [A4 [W4 [NL4 [Nx4 [V4 [E4 [Hi [Keep X4]]]]]]]]]].
    exists g4, o, i. split.
    { unfold cluster1. rewrite <- A4. unfold down in A1. fold q in A1. unfold right in A2. fold r in A2.
      replace (if Nat.ltb (q + 1) m then _ else Ok g) with (Ok g1).
      - cbn [bind]. replace (if Nat.ltb (r + 1) n then _ else Ok g1) with (Ok g2).
        + cbn [bind]. rewrite cell_ok by auto. cbn [bind]. rewrite Ej, A3. cbn [bind]. reflexivity.
        + rewrite <- A2. destruct (Nat.ltb_spec (r + 1) n) as [L|L]; auto. rewrite !cell_ok by auto. cbn [bind]. f_equal; lia.
      - rewrite <- A1. destruct (Nat.ltb_spec (q + 1) m) as [L|L]; auto. rewrite !cell_ok by auto. cbn [bind]. f_equal; lia. }
    assert (K2 : forall w, w < gvindex g -> vty g4 w = vty g w /\ qubit g4 w = qubit g w /\ row g4 w = row g w).
    { intros w L. destruct (Keep w) as [-> [-> ->]]; [lia|]. destruct (Poo w) as [-> ->]; [lia|]. rewrite Too, VT2 by lia. destruct (frame_pos g g2 w F12) as [-> ->]. auto. }
    assert (EE : forall a b, edge_type g4 a b = if isin j && pair_hit j i a b then Some SIMPLE else if pair_hit j o a b then Some SIMPLE else if right j && pair_hit j (j + 1) a b then Some HADAMARD else if down j && pair_hit j (j + n) a b then Some HADAMARD else edge_type g a b).
    { intros a b. rewrite E4, E3, E2, E1. reflexivity. }
    (* wires at vertices outside the grid *)
    assert (EO : forall a b, N <= a -> a <> o -> (isin j = true -> a <> i) -> edge_type g4 a b = edge_type g a b).
    { intros a b La Do Di. rewrite EE. destruct (isin j && pair_hit j i a b) eqn:Q1. { apply andb_true_iff in Q1. destruct Q1 as [Qi Q1]. apply pair_hit_l in Q1. destruct Q1 as [[-> _]|[-> _]]; [lia|exfalso; apply Di; auto]. }
      destruct (pair_hit j o a b) eqn:Q2. { apply pair_hit_l in Q2. destruct Q2 as [[-> _]|[-> _]]; [lia|congruence]. }
      destruct (right j && pair_hit j (j + 1) a b) eqn:Q3. { apply andb_true_iff in Q3. destruct Q3 as [Qi Q3]. apply Rn in Qi. apply pair_hit_l in Q3. destruct Q3 as [[-> _]|[-> _]]; lia. }
      destruct (down j && pair_hit j (j + n) a b) eqn:Q4; auto. apply andb_true_iff in Q4. destruct Q4 as [Qi Q4]. apply Dn in Qi. apply pair_hit_l in Q4. destruct Q4 as [[-> _]|[-> _]]; lia. }
    assert (Eself : forall s b, s <> j -> (forall w, edge_type g s w = None) -> N <= s -> (forall c, pair_hit j s s c = Nat.eqb c j) /\ (right j && pair_hit j (j + 1) s b = false) /\ (down j && pair_hit j (j + n) s b = false)).
    { intros s b D _ Ls. split; [|split].
      - intros c. unfold pair_hit. rewrite (proj2 (Nat.eqb_neq s j)) by auto. rewrite Nat.eqb_refl. cbn [andb orb]. reflexivity.
      - destruct (right j) eqn:Q; auto. destruct (Rn eq_refl) as [R1 R2]. apply pair_hit_false; intros X; injection X; intros; lia.
      - destruct (down j) eqn:Q; auto. assert (R1 := Dn eq_refl). apply pair_hit_false; intros X; injection X; intros; lia. }
    assert (Go : forall w, edge_type g o w = None). { intros w. refine (proj1 (edge_none_out g o w W _)). rewrite <- V2. auto. }
    constructor; auto.
    - lia.
    - intros u. rewrite V4, V3, V2, in_app_iff, IN. simpl. split.
      + intros [[[L|[[k [L ->]]|[k [L [Q ->]]]]]|[<-|[]]]|[Q ->]]; auto.
        * right; left. exists k. rewrite ext_lt by auto. auto.
        * right; right. exists k. rewrite ext_lt by auto. auto.
        * right; left. exists j. rewrite ext_same. auto.
        * right; right. exists j. rewrite ext_same. auto.
      + intros [L|[[k [L ->]]|[k [L [Q ->]]]]]; auto; destruct (Nat.eq_dec k j) as [->|D]; rewrite ?ext_same; auto; rewrite ext_lt by lia; left; left; right; [left|right]; exists k; split; auto; lia.
    - intros k L. destruct (K2 k) as [-> [-> ->]]; [lia|]. apply CZ; auto.
    - intros k L. destruct (Nat.eq_dec k j) as [->|D].
      + rewrite ext_same. destruct (Keep o) as [-> [-> ->]]; [lia|]. destruct Po as [-> ->]. split; [lia|]. split; auto. split; auto. split; auto. intros u. rewrite EE.
        assert (Doj : o <> j) by lia. destruct (Eself o u Doj Go Lo) as [P1 [P2 P3]]. rewrite P1, P2, P3, Go.
        destruct (isin j && pair_hit j i o u) eqn:Q; auto. apply andb_true_iff in Q. destruct Q as [Qi Q]. apply Hi in Qi. apply pair_hit_l in Q. destruct Q as [[Q _]|[Q _]]; lia.
      + rewrite ext_lt by lia. assert (Lk : k < j) by lia. destruct (CO k Lk) as [B1 [B2 [B3 [B4 B5]]]]. destruct (K2 (O k)) as [-> [-> ->]]; [lia|]. split; [lia|]. split; auto. split; auto. split; auto.
        intros u. rewrite EO; auto; [lia|lia|intros Qi; apply Hi in Qi; lia].
    - intros k L Qk. destruct (Nat.eq_dec k j) as [->|D].
      + rewrite ext_same. destruct (Hi Qk) as [B1 [B2 [[B3 B4] B5]]]. split; [lia|]. split; auto. split; auto. split; auto. intros u. rewrite EE, Qk. cbn [andb].
        assert (Dij : i <> j) by lia. assert (Gi : forall w, edge_type g i w = None). { intros w. refine (proj1 (edge_none_out g i w W _)). intros X. apply (wf_fresh g W) in X. lia. }
        assert (Li : N <= i) by lia. destruct (Eself i u Dij Gi Li) as [P1 [P2 P3]]. rewrite P1, P2, P3, Gi. destruct (Nat.eqb u j) eqn:Q; auto.
        destruct (pair_hit j o i u) eqn:Q'; auto. apply pair_hit_l in Q'. destruct Q' as [[Q' _]|[Q' _]]; lia.
      + rewrite ext_lt by lia. assert (Lk : k < j) by lia. destruct (CI k Lk Qk) as [B1 [B2 [B3 [B4 B5]]]]. destruct (K2 (I k)) as [-> [-> ->]]; [lia|]. split; [lia|]. split; auto. split; auto. split; auto.
        intros u. rewrite EO; auto; [lia|lia|intros Qi; apply Hi in Qi; lia].
    - intros a b L1 L2 Q. destruct (Nat.eq_dec a j) as [->|D]; [lia|]. assert (a < j); [|lia]. apply (CE a b L1 L2). intros Q0. apply Q. rewrite EE, Q0.
      destruct (isin j && pair_hit j i a b) eqn:Q1. { apply andb_true_iff in Q1. destruct Q1 as [Qi Q1]. apply Hi in Qi. apply pair_hit_l in Q1. destruct Q1 as [[-> _]|[-> ->]]; lia. }
      destruct (pair_hit j o a b) eqn:Q2. { apply pair_hit_l in Q2. destruct Q2 as [[-> _]|[-> ->]]; lia. }
      destruct (right j && pair_hit j (j + 1) a b) eqn:Q3. { apply andb_true_iff in Q3. destruct Q3 as [Qi Q3]. apply pair_hit_l in Q3. destruct Q3 as [[-> _]|[-> ->]]; lia. }
      destruct (down j && pair_hit j (j + n) a b) eqn:Q4; auto. apply andb_true_iff in Q4. destruct Q4 as [Qi Q4]. apply pair_hit_l in Q4. destruct Q4 as [[-> _]|[-> ->]]; lia.
    - intros x. rewrite X4, X3. rewrite V2. rewrite V1 in X2. rewrite X2, X1, CX. rewrite seq_S, cprod_app. cbn [plus cprod map].
      rewrite (cprod_ext nat (fun k => wcell (ext O j o) (ext I j i) k x) (fun k => wcell O I k x)).
      + generalize (cprod (fun k => wcell O I k x) (seq 0 j)). intros P. unfold wcell. rewrite !ext_same. unfold links. ring.
      + intros k Hk. apply in_seq in Hk. unfold wcell. rewrite !ext_lt by lia. auto.
  Qed.
End Cluster.

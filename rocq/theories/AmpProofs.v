(** Diagrams under construction: amplitudes with named open wires. *)
From Coq Require Import Reals ZArith QArith Qcanon List Bool Arith Lia Permutation.
From Verif Require Import CNum Base ScalarModel ScalarProofs GraphModel GraphSem SumLemmas GraphProofs GraphOps RulesModel RuleLemmas
  SpiderProofs IsoProofs IdProofs LcompProofs PivotProofs GrowProofs StoreProofs GateModel CircSpec GateProofs.
Import ListNotations.
Open Scope C_scope.

(** the label q of L names the vertex [pv q], whose bit is read off as [z q] *)
Definition tails (L : list nat) (pv : nat -> nat) (x z : assignment) : C := cprod (fun q => dlt (x (pv q)) (z q)) L.
Definition amp (L : list nat) (pv : nat -> nat) (g : graph) (b z : assignment) : C :=
  sumv (internal g) (fun x => integL (vertices g) g x * tails L pv x z) b.

Lemma dlt_sum : forall a, dlt a false + dlt a true = C1.
Proof. intros []; unfold dlt; simpl; ring. Qed.
Lemma dlt_mult : forall (f : bool -> C) a b, f a * dlt a b = f b * dlt a b.
Proof. intros f [] []; unfold dlt; simpl; ring. Qed.
Lemma dlt_refl' : forall a, dlt a a = C1.
Proof. intros []; reflexivity. Qed.

Lemma tails_ext : forall L pv pv' x z z', (forall q, In q L -> pv q = pv' q /\ z q = z' q) -> tails L pv x z = tails L pv' x z'.
Proof. intros. apply cprod_ext. intros q Hq. destruct (H q Hq) as [-> ->]. reflexivity. Qed.
Lemma amp_ext : forall L pv pv' g b z z', (forall q, In q L -> pv q = pv' q /\ z q = z' q) -> amp L pv g b z = amp L pv' g b z'.
Proof. intros. apply sumv_ext. intros x. f_equal. apply tails_ext; auto. Qed.
Lemma amp_perm : forall L L' pv g b z, Permutation L L' -> amp L pv g b z = amp L' pv g b z.
Proof. intros. apply sumv_ext. intros x. f_equal. apply cprod_perm. auto. Qed.
Lemma amp_close : forall q L pv g b z, ~ In q L -> amp L pv g b z = amp (q :: L) pv g b (upd z q false) + amp (q :: L) pv g b (upd z q true).
Proof.
  intros q L pv g b z N. unfold amp. rewrite <- sumv_plus. apply sumv_ext. intros x. unfold tails. cbn [cprod].
  rewrite !(upd_same z q).
  assert (E : forall w, cprod (fun q0 => dlt (x (pv q0)) (upd z q w q0)) L = cprod (fun q0 => dlt (x (pv q0)) (z q0)) L).
  { intros w. apply cprod_ext. intros a Ha. rewrite upd_other; auto. intros ->; contradiction. }
  rewrite !E.
  transitivity (integL (vertices g) g x * ((dlt (x (pv q)) false + dlt (x (pv q)) true) * cprod (fun q0 => dlt (x (pv q0)) (z q0)) L)); [rewrite dlt_sum; ring|ring].
Qed.
Lemma amp_rename : forall q l L pv g b z, ~ In q L -> ~ In l L ->
  amp (q :: L) (fun i => if Nat.eqb i q then pv l else pv i) g b z = amp (l :: L) pv g b (upd z l (z q)).
Proof.
  intros q l L pv g b z N1 N2. unfold amp. apply sumv_ext. intros x. f_equal. unfold tails. cbn [cprod]. rewrite Nat.eqb_refl, upd_same. f_equal.
  apply cprod_ext. intros a Ha. destruct (Nat.eqb_spec a q); [subst; contradiction|]. rewrite upd_other; auto. intros ->; contradiction.
Qed.
Lemma amp_nil : forall pv g b z, amp [] pv g b z = sem g b.
Proof. intros. apply sumv_ext. intros x. unfold tails. simpl. ring. Qed.

(** a factor depending only on read-off bits *)
Lemma tails_read : forall L pv x z q (f : bool -> C), In q L -> f (x (pv q)) * tails L pv x z = f (z q) * tails L pv x z.
Proof.
  intros L pv x z q f H. unfold tails. induction L as [|a L IH]; [destruct H|]. cbn [cprod]. destruct H as [->|H].
  - transitivity (f (x (pv q)) * dlt (x (pv q)) (z q) * cprod (fun q0 => dlt (x (pv q0)) (z q0)) L); [ring|]. rewrite dlt_mult. ring.
  - specialize (IH H). transitivity (dlt (x (pv a)) (z a) * (f (x (pv q)) * cprod (fun q0 => dlt (x (pv q0)) (z q0)) L)); [ring|]. rewrite IH. ring.
Qed.
Lemma tails_read2 : forall L pv x z q l (f : bool -> bool -> C), In q L -> In l L ->
  f (x (pv q)) (x (pv l)) * tails L pv x z = f (z q) (z l) * tails L pv x z.
Proof.
  intros. rewrite (tails_read L pv x z q (fun a => f a (x (pv l)))) by auto. apply (tails_read L pv x z l (fun a => f (z q) a)). auto.
Qed.

(** same diagram up to a factor on the integrand *)
Lemma amp_factor : forall L pv g g' b z (c : C), vertices g' = vertices g -> internal g' = internal g ->
  (forall x, integL (vertices g) g' x * tails L pv x z = c * (integL (vertices g) g x * tails L pv x z)) ->
  amp L pv g' b z = c * amp L pv g b z.
Proof. intros L pv g g' b z c V I H. unfold amp. rewrite V, I, <- sumv_scal. apply sumv_ext. auto. Qed.

Lemma vertices_pv_fresh : forall g v, wfg g -> v = gvindex g -> ~ In v (vertices g).
Proof. intros. subst. apply fresh_not_in; auto. Qed.

Lemma internal_app : forall g g' v, vertices g' = vertices g ++ [v] -> ~ In v (vertices g) ->
  (forall u, u <> v -> vty g' u = vty g u) -> internal g' = internal g ++ (if isB g' v then [] else [v]).
Proof.
  intros g g' v V N T. unfold internal. rewrite V, filter_app. f_equal.
  - apply filter_ext_in. intros u Hu. unfold isB. rewrite T; auto. intros ->; contradiction.
  - simpl. destruct (isB g' v); reflexivity.
Qed.

Lemma edge_none_out : forall g u w, wfg g -> ~ In u (vertices g) -> edge_type g u w = None /\ edge_type g w u = None.
Proof.
  intros g u w W N. split.
  - destruct (edge_type g u w) eqn:E; auto. apply edge_in_l in E. contradiction.
  - destruct (edge_type g w u) eqn:E; auto. apply edge_in_r in E; auto. contradiction.
Qed.

Lemma integL_add_vertex : forall t q r p g g' v x, wfg g -> add_vertex t q r (Some p) g = (g', v) ->
  integL (vertices g') g' x = integL (vertices g) g x * (if vtype_eqb t BOUNDARY then C1 else ephase p (x v)).
Proof.
  intros t q r p g g' v x W E. destruct (add_vertex_spec _ _ _ _ _ _ _ W E) as [Ev [W' [V [ET [_ [T [P [_ [_ S]]]]]]]]].
  assert (Fv := vertices_pv_fresh g v W Ev).
  rewrite V. unfold integL. rewrite S, cprod_app, pprod_app. cbn [cprod pprod].
  assert (E1 : cprod (fun v0 => pw g' v0 (x v0)) (vertices g) = cprod (fun v0 => pw g v0 (x v0)) (vertices g)).
  { apply cprod_ext. intros u Hu. assert (u <> v) by (intros ->; contradiction). unfold pw, isB. rewrite T, P.
    rewrite (proj2 (Nat.eqb_neq u v)) by auto. reflexivity. }
  assert (E2 : pprod (fun u v0 => ew g' u v0 (x u) (x v0)) (vertices g) = pprod (fun u v0 => ew g u v0 (x u) (x v0)) (vertices g)).
  { apply pprod_ext. intros u w Hu Hw. assert (u <> v) by (intros ->; contradiction). assert (w <> v) by (intros ->; contradiction).
    unfold ew, isX. rewrite ET, !T. rewrite (proj2 (Nat.eqb_neq u v)), (proj2 (Nat.eqb_neq w v)) by auto. reflexivity. }
  assert (E3 : cprod (fun u => ew g' u v (x u) (x v) * C1) (vertices g) = C1).
  { apply cprod_1. intros u Hu. unfold ew. rewrite ET. rewrite (proj2 (edge_none_out g v u W Fv)). simpl. ring. }
  rewrite E1, E2, E3. unfold pw at 2. unfold isB. rewrite T, P, Nat.eqb_refl.
  destruct (vtype_eqb t BOUNDARY); rewrite ?ephase_mod2; ring.
Qed.

(** a fresh internal vertex with a label of its own *)
Lemma amp_vertex : forall t q r p g g' v L pv l b z, wfg g -> add_vertex t q r (Some p) g = (g', v) -> t <> BOUNDARY ->
  (forall i, In i L -> In (pv i) (vertices g)) -> ~ In l L -> pv l = v ->
  amp (l :: L) pv g' b z = ephase p (z l) * amp L pv g b z.
Proof.
  intros t q r p g g' v L pv l b z W E NB HP Nl Hl. assert (A := E). destruct (add_vertex_spec _ _ _ _ _ _ _ W E) as [Ev [W' [V [ET [_ [T [P [_ [_ S]]]]]]]]].
  assert (Fv := vertices_pv_fresh g v W Ev).
  assert (TB : vtype_eqb t BOUNDARY = false) by (destruct t; auto; congruence).
  assert (BV : isB g' v = false) by (unfold isB; rewrite T, Nat.eqb_refl; auto).
  unfold amp. rewrite (internal_app g g' v V Fv) by (intros u Hu; rewrite T, (proj2 (Nat.eqb_neq u v)); auto).
  rewrite BV, sumv_app, <- sumv_scal. apply sumv_ext. intros x. cbn [sumv].
  rewrite !(integL_add_vertex _ _ _ _ _ _ _ _ W A), TB, !integL_indep by auto. unfold tails. cbn [cprod]. rewrite Hl, !upd_same.
  assert (X : forall w, cprod (fun q0 => dlt (upd x v w (pv q0)) (z q0)) L = cprod (fun q0 => dlt (x (pv q0)) (z q0)) L).
  { intros w. apply cprod_ext. intros a Ha. rewrite upd_other; auto. intros X. apply Fv. rewrite <- X. auto. }
  rewrite !X. destruct (z l); unfold dlt; simpl; ring.
Qed.
(** a fresh boundary vertex: its bit is the one of b *)
Lemma amp_boundary : forall q r g g' v L pv b z, wfg g -> add_vertex BOUNDARY q r (Some 0%Qc) g = (g', v) ->
  amp L pv g' b z = amp L pv g b z.
Proof.
  intros q r g g' v L pv b z W E. assert (A := E). destruct (add_vertex_spec _ _ _ _ _ _ _ W E) as [Ev [W' [V [ET [_ [T [P [_ [_ S]]]]]]]]].
  assert (Fv := vertices_pv_fresh g v W Ev).
  assert (BV : isB g' v = true) by (unfold isB; rewrite T, Nat.eqb_refl; auto).
  unfold amp. rewrite (internal_app g g' v V Fv) by (intros u Hu; rewrite T, (proj2 (Nat.eqb_neq u v)); auto).
  rewrite BV, app_nil_r. apply sumv_ext. intros x. rewrite (integL_add_vertex _ _ _ _ _ _ _ _ W A). cbn [vtype_eqb]. ring.
Qed.
Lemma amp_bport : forall g L pv l b z, (forall v, In v (internal g) -> v <> pv l) ->
  amp (l :: L) pv g b z = dlt (b (pv l)) (z l) * amp L pv g b z.
Proof.
  intros g L pv l b z H. unfold amp.
  transitivity (sumv (internal g) (fun x => dlt (x (pv l)) (z l) * (integL (vertices g) g x * tails L pv x z)) b).
  - apply sumv_ext. intros x. unfold tails. cbn [cprod]. ring.
  - apply (sumv_mult_indep (internal g) (fun x => dlt (x (pv l)) (z l))). intros y v w Hv. rewrite upd_other; auto. intros X. apply (H v Hv). auto.
Qed.

(** an edge between labelled vertices that are not joined yet *)
Lemma add_edge_new : forall s t et g, wfg g -> s <> t -> In s (vertices g) -> In t (vertices g) -> edge_type g s t = None ->
  exists g', add_edge s t et g = Ok g' /\ wfg g' /\ same_frame g g' /\ (forall u, phase g' u = phase g u) /\
  (forall u v, edge_type g' u v = if pair_hit s t u v then Some et else edge_type g u v) /\
  (forall L pv l1 l2 b z, In l1 L -> In l2 L -> pv l1 = s -> pv l2 = t ->
     amp L pv g' b z = wt (Some (tog (xorb (isX g s) (isX g t)) et)) (z l1) (z l2) * amp L pv g b z).
Proof.
  intros s t et g W D Is It EN. destruct (add_edge_ok s t et g W D Is It (or_introl EN)) as [g' E]. exists g'. split; auto.
  destruct (add_edge_spec _ _ _ _ _ W D E) as [W' [F [_ [_ [_ [_ I]]]]]]. assert (E' := E).
  unfold add_edge in E. destruct (dget s (gadj g)) as [ds|] eqn:Es; [|discriminate].
  rewrite (edge_none_dget g s t ds Es) in EN. rewrite EN in E.
  destruct (set_edge_type_spec _ _ _ _ _ (wfg_nedges _ _ W) E) as [_ [_ [P [_ [_ [_ ET]]]]]].
  split; auto. split; auto. split; [intros u; unfold phase; rewrite P; reflexivity|]. split; [intros; rewrite ET; reflexivity|].
  intros L pv l1 l2 b z I1 I2 <- <-. apply amp_factor; [apply F|apply same_frame_internal; auto|].
  intros x. rewrite I by (auto; apply W). unfold nw.
  transitivity (integL (vertices g) g x * (wt (Some (tog (xorb (isX g (pv l1)) (isX g (pv l2))) et)) (x (pv l1)) (x (pv l2)) * tails L pv x z)); [ring|].
  rewrite (tails_read2 L pv x z l1 l2 (fun a b => wt (Some (tog (xorb (isX g (pv l1)) (isX g (pv l2))) et)) a b)) by auto. ring.
Qed.

Lemma amp_power : forall n L pv g b z, amp L pv (on_scalar (s_add_power n) g) b z = sq2p n * amp L pv g b z.
Proof. intros. apply amp_factor; auto. intros x. rewrite integL_power. ring. Qed.

Lemma amp_phase : forall v p g L pv l b z, wfg g -> In v (vertices g) -> phase g v = 0%Qc -> isB g v = false -> In l L -> pv l = v ->
  amp L pv (set_phase v p g) b z = ephase p (z l) * amp L pv g b z.
Proof.
  intros v p g L pv l b z W Hv P0 B0 Hl <-. apply amp_factor; auto. intros x.
  assert (X : integL (vertices g) (set_phase (pv l) p g) x = integL (vertices g) g x * ephase p (x (pv l))).
  { replace (set_phase (pv l) p g) with (add_to_phase (pv l) p g).
    - apply integL_add_to_phase; auto. apply W.
    - unfold set_phase, add_to_phase. rewrite P0. do 3 f_equal. ring. }
  rewrite X. transitivity (integL (vertices g) g x * (ephase p (x (pv l)) * tails L pv x z)); [ring|].
  rewrite (tails_read L pv x z l (fun a => ephase p a)) by auto. ring.
Qed.

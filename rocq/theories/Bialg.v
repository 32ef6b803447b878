(** The bialgebra rule of rules.py on diagrams whose wires between Z and X
    spiders are plain: it keeps the map up to a non-zero scalar. *)
From Coq Require Import Reals ZArith QArith Qcanon List Bool Arith Lia Permutation Ring.
From Verif Require Import CNum Base ScalarModel ScalarProofs GraphModel GraphSem SumLemmas GraphProofs GraphOps StoreProofs
  RulesModel RuleLemmas SpiderProofs IsoProofs IdProofs LcompProofs PivotProofs GrowProofs PivotMatch GadgetProofs
  SimpModel ColorProofs SimpProofs PairProofs RuleShape TermProofs InvProofs RoundProofs.
Import ListNotations.
Open Scope nat_scope.
Open Scope C_scope.

Notation bmatch := (nat * nat * list nat * list nat)%type.
Definition bv (m : bmatch) : edge := (fst (fst (fst m)), snd (fst (fst m))).
Definition bvs (m : bmatch) : list nat := [fst (bv m); snd (bv m)].
Definition bn0 (m : bmatch) : list nat := snd (fst m).
Definition bn1 (m : bmatch) : list nat := snd m.

(** wires between spiders of different colours are plain *)
Definition plain (g : graph) : Prop := forall u w e, edge_type g u w = Some e -> vty g u = ZSP -> vty g w = XSP -> e = SIMPLE.
Definition opp (g : graph) (u w : nat) : Prop := (vty g u = ZSP /\ vty g w = XSP) \/ (vty g u = XSP /\ vty g w = ZSP).
Lemma plain_opp : forall g u w e, wfg g -> plain g -> opp g u w -> edge_type g u w = Some e -> e = SIMPLE.
Proof. intros g u w e W P [[A B]|[A B]] E; [apply (P u w e); auto|]. rewrite (wf_sym g W) in E. apply (P w u e); auto. Qed.
Lemma opp_isX : forall g u w, opp g u w -> xorb (isX g u) (isX g w) = true.
Proof. intros g u w [[A B]|[A B]]; unfold isX; rewrite A, B; reflexivity. Qed.

Record bi_ok (g : graph) (m : bmatch) : Prop := mkbi {
  bi_opp : opp g (fst (bv m)) (snd (bv m));
  bi_edge : edge_type g (fst (bv m)) (snd (bv m)) = Some SIMPLE;
  bi_ph : phase g (fst (bv m)) = 0%Qc /\ phase g (snd (bv m)) = 0%Qc;
  bi_nd : NoDup (bn0 m) /\ NoDup (bn1 m);
  bi_n0 : forall u, In u (bn0 m) <-> u <> snd (bv m) /\ edge_type g (fst (bv m)) u <> None;
  bi_n1 : forall u, In u (bn1 m) <-> u <> fst (bv m) /\ edge_type g (snd (bv m)) u <> None;
  bi_t0 : forall u, In u (bn0 m) -> vty g u = vty g (snd (bv m)) /\ edge_type g (fst (bv m)) u = Some SIMPLE;
  bi_t1 : forall u, In u (bn1 m) -> vty g u = vty g (fst (bv m)) /\ edge_type g (snd (bv m)) u = Some SIMPLE
}.

Lemma match_bialg_in : forall g num cands i disc m, wfg g -> plain g -> (forall e, In e cands -> In e (edges g)) ->
  In m (match_bialg_loop g num i cands disc) -> In (bv m) cands /\ ~ In (bv m) disc /\ bi_ok g m.
Proof.
  intros g num cands. induction cands as [|c cands IH]; intros i disc m W P HC H; [contradiction|].
  cbn [match_bialg_loop] in H. destruct (lim_reached num i); [contradiction|].
  assert (HC' : forall e, In e cands -> In e (edges g)) by (intros; apply HC; simpl; auto).
  assert (D : forall j d, In m (match_bialg_loop g num j cands d) -> (forall x, In x disc -> In x d) ->
     In (bv m) (c :: cands) /\ ~ In (bv m) disc /\ bi_ok g m).
  { intros j d Hj Hd. apply IH in Hj; auto. destruct Hj as [A [B Q]]. split; [right; auto|]. split; auto. }
  destruct (emem c disc) eqn:M; [eapply D; eauto|]. destruct c as [v0 v1].
  match type of H with In m (if ?b then _ else _) => destruct b eqn:T end; [|eapply D; eauto].
  match type of H with In m (if ?b then _ else _) => destruct b eqn:F end; [|eapply D; eauto].
  destruct H as [<-|H].
  2:{ eapply D; eauto. intros; apply in_app_iff; auto. }
  unfold bv, bn0, bn1. cbn [fst snd]. split; [left; auto|]. split; [apply emem_false; auto|].
  apply andb_true_iff in T. destruct T as [T1 T2]. apply andb_true_iff in T1. destruct T1 as [T0 T1].
  apply andb_true_iff in F. destruct F as [F0 F1]. rewrite forallb_forall in F0, F1.
  assert (OP : opp g v0 v1).
  { apply orb_true_iff in T2. destruct T2 as [T2|T2]; apply andb_true_iff in T2; destruct T2 as [A B]; apply vtype_eqb_eq in A, B; [left|right]; auto. }
  assert (EE : edge_type g v0 v1 <> None) by (apply in_edges; auto; apply HC; left; auto).
  assert (E0 : edge_type g v0 v1 = Some SIMPLE) by (destruct (edge_type g v0 v1) as [e|] eqn:X; [f_equal; apply (plain_opp g v0 v1 e); auto|congruence]).
  assert (OP' : opp g v1 v0) by (destruct OP as [[]|[]]; [right|left]; auto).
  constructor; unfold bv, bn0, bn1; cbn [fst snd]; auto.
  - split; apply qeqb_eq; auto.
  - split; apply NoDup_filter, neighbors_nd; auto.
  - intros u. rewrite filter_In, neighbors_spec, negb_true_iff, Nat.eqb_neq. tauto.
  - intros u. rewrite filter_In, neighbors_spec, negb_true_iff, Nat.eqb_neq. tauto.
  - intros u Hu. specialize (F0 u Hu). apply andb_true_iff in F0. destruct F0 as [F0 _]. apply vtype_eqb_eq in F0. split; auto.
    apply filter_In in Hu. destruct Hu as [Hu _]. apply neighbors_spec in Hu. destruct (edge_type g v0 u) as [e|] eqn:X; [|congruence]. f_equal.
    apply (plain_opp g v0 u e); auto. unfold opp in *. rewrite F0. auto.
  - intros u Hu. specialize (F1 u Hu). apply andb_true_iff in F1. destruct F1 as [F1 _]. apply vtype_eqb_eq in F1. split; auto.
    apply filter_In in Hu. destruct Hu as [Hu _]. apply neighbors_spec in Hu. destruct (edge_type g v1 u) as [e|] eqn:X; [|congruence]. f_equal.
    apply (plain_opp g v1 u e); auto. unfold opp in *. rewrite F1. auto.
Qed.

Lemma bialg_far_discard : forall g v0 v1 u0 u1, wfg g -> (v0 < v1)%nat -> edge_type g v0 v1 <> None ->
  (u0 < u1)%nat -> edge_type g u0 u1 <> None -> (u0, u1) <> (v0, v1) ->
  (forall n, (n <> v1 /\ edge_type g v0 n <> None) \/ (n <> v0 /\ edge_type g v1 n <> None) -> ~ In (u0, u1) (incident_edges g n)) ->
  far g (v0, v1) (u0, u1).
Proof.
  intros g v0 v1 u0 u1 W L E L' E' NE H.
  assert (I0 := incident_in g u0 u1 L' E'). assert (I1 := incident_in_r g u0 u1 W L' E').
  assert (X : forall b, b = u0 \/ b = u1 -> ~ ((b <> v1 /\ edge_type g v0 b <> None) \/ (b <> v0 /\ edge_type g v1 b <> None))).
  { intros b Hb Q. apply (H b Q). destruct Hb as [->| ->]; auto. }
  assert (S : edge_type g u1 u0 <> None) by (rewrite (wf_sym g W); auto).
  assert (D : forall a b, a = v0 \/ a = v1 -> b = u0 \/ b = u1 -> a <> b).
  { intros a b Ha Hb <-. destruct Hb as [<-|<-].
    - apply (X u1); auto. destruct Ha as [->| ->]; [left|right]; split; auto.
      all: intros ->; first [lia | apply NE; reflexivity].
    - apply (X u0); auto. destruct Ha as [->| ->]; [left|right]; split; auto.
      all: intros ->; first [lia | apply NE; reflexivity]. }
  intros a b Ha Hb. cbn [fst snd] in *. split; [apply D; auto|].
  destruct (edge_type g a b) eqn:Q; auto. exfalso. apply (X b Hb).
  destruct Ha as [->| ->]; [left|right]; split; try congruence; intros ->; [apply (D v1 v1)|apply (D v0 v0)]; auto.
Qed.
Lemma match_bialg_far : forall g num cands i disc, wfg g -> plain g -> (forall e, In e cands -> In e (edges g)) -> NoDup cands ->
  ForallOrdPairs (fun m m' => far g (bv m) (bv m')) (match_bialg_loop g num i cands disc).
Proof.
  intros g num cands. induction cands as [|c cands IH]; intros i disc W P HC ND; cbn [match_bialg_loop]; [constructor|].
  inversion ND as [|? ? NI ND']; subst.
  destruct (lim_reached num i); [constructor|].
  assert (HC' : forall e, In e cands -> In e (edges g)) by (intros; apply HC; simpl; auto).
  destruct (emem c disc); [apply IH; auto|]. destruct c as [v0 v1].
  match goal with |- ForallOrdPairs _ (if ?b then _ else _) => destruct b eqn:T end; [|apply IH; auto].
  match goal with |- ForallOrdPairs _ (if ?b then _ else _) => destruct b eqn:F end; [|apply IH; auto].
  constructor; [|apply IH; auto]. rewrite Forall_forall. intros m Hm.
  apply match_bialg_in in Hm; auto. destruct Hm as [A [B Q]]. destruct (bv m) as [u0 u1] eqn:Em. unfold bv at 1. cbn [fst snd].
  assert (I := HC' _ A). apply in_edges in I; auto. assert (I0 := HC _ (or_introl eq_refl)). apply in_edges in I0; auto.
  apply bialg_far_discard; try tauto.
  - intros X. rewrite X in A. contradiction.
  - intros n Hn X. apply B. rewrite !in_app_iff. right. destruct Hn as [[N1 N2]|[N1 N2]]; [left|right]; apply in_flat_map; exists n; split; auto;
      apply filter_In; rewrite neighbors_spec, negb_true_iff, Nat.eqb_neq; auto.
Qed.

(** the table *)
Lemma simple_fold : forall g L es tab, tabL L tab -> (forall s t, In (s,t) es -> s <> t /\ In s L /\ In t L) ->
  let tab' := fold_left (fun tab e => etab_add e SIMPLE tab) es tab in
  tabL L tab' /\ (forall e, snd (cnt e tab') = snd (cnt e tab)) /\
  forall x, tabw g tab' x = tabw g tab x * cprod (fun e => nw g SIMPLE (fst e) (snd e) x) es.
Proof.
  intros g L es. induction es as [|[s t] es IH]; intros tab T H; cbn [fold_left].
  - split; auto. split; auto. intros. cbn [cprod]. ring.
  - destruct (H s t (or_introl eq_refl)) as [A [B D]].
    destruct (IH (etab_add (s,t) SIMPLE tab)) as [I1 [I2 I3]].
    + apply tabL_add; auto.
    + intros s' t' I'. apply (H s' t' (or_intror I')).
    + split; auto. split.
      * intros e. rewrite I2, cnt_add. destruct (ekeq e (s,t)) eqn:X; auto. apply ekeq_eq in X. subst e. reflexivity.
      * intros x. rewrite I3, tabw_add by apply T. cbn [cprod fst snd]. ring.
Qed.
Definition b_es (m : bmatch) : list edge := list_prod (bn0 m) (bn1 m).
Definition b_eff (g : graph) (m : bmatch) (x : assignment) : C := cprod (fun e => nw g SIMPLE (fst e) (snd e) x) (b_es m).
Definition b_step (st : etab * list nat) (m : bmatch) : etab * list nat :=
  let '(tab, rem) := st in
  let '(v0, v1, n0, n1) := m in
  (fold_left (fun tab e => etab_add e SIMPLE tab) (list_prod n0 n1) tab, rem ++ [v0; v1]).
Lemma bi_fold : forall g L ms tab rem, tabL L tab -> (forall m s t, In m ms -> In (s, t) (b_es m) -> s <> t /\ In s L /\ In t L) ->
  exists tab', fold_left b_step ms (tab, rem) = (tab', rem ++ flat_map bvs ms) /\ tabL L tab' /\
  (forall e, snd (cnt e tab') = snd (cnt e tab)) /\
  forall x, tabw g tab' x = tabw g tab x * cprod (fun m => b_eff g m x) ms.
Proof.
  intros g L ms. induction ms as [|m ms IH]; intros tab rem T H; cbn [fold_left].
  - exists tab. cbn [flat_map cprod]. rewrite app_nil_r. split; auto. split; auto. split; auto. intros; ring.
  - destruct m as [[[v0 v1] n0] n1]. cbn [b_step].
    destruct (simple_fold g L (list_prod n0 n1) tab T) as [A [B D]].
    { intros s t Hst. apply (H (v0, v1, n0, n1) s t); [left; auto|exact Hst]. }
    destruct (IH _ (rem ++ [v0; v1]) A) as [tab' [E1 [E2 [E3 E4]]]].
    { intros m s t Hm. apply H. right; auto. }
    exists tab'. rewrite E1, <- app_assoc. split; [reflexivity|]. split; auto. split; [intros; rewrite E3; apply B|].
    intros x. rewrite E4, D. cbn [cprod]. unfold b_eff at 2, b_es, bn0, bn1. cbn [fst snd]. ring.
Qed.

(** the identity *)
Definition bpw (m : bmatch) : Z := ((Z.of_nat (length (bn0 m)) - 1) * (Z.of_nat (length (bn1 m)) - 1))%Z.
Lemma cprod_opp_prod : forall g y l1 l2, (forall u w, In u l1 -> In w l2 -> opp g u w) ->
  cprod (fun e => nw g SIMPLE (fst e) (snd e) y) (list_prod l1 l2) =
  sq2p (- (Z.of_nat (length l1) * Z.of_nat (length l2))) * sgn (parity y l1 && parity y l2).
Proof.
  intros g y l1 l2 H.
  rewrite (cprod_listprod (fun s t => nw g SIMPLE s t y)).
  rewrite (cprod_ext _ _ (fun u => sq2p (- Z.of_nat (length l2)) * sgn (y u && parity y l2))).
  - rewrite cprod_mult, cprod_const, cpow_sq2p.
    rewrite (cprod_ext _ (fun a => sgn (y a && parity y l2)) (fun a => sgn (parity y l2 && y a)))
      by (intros; rewrite andb_comm; reflexivity).
    rewrite cprod_sgn_and. rewrite andb_comm. f_equal; f_equal; lia.
  - intros u Hu. rewrite (cprod_ext _ _ (fun v => sq2p (-1) * sgn (y u && y v))).
    + rewrite cprod_mult, cprod_const, cpow_sq2p, cprod_sgn_and. f_equal; f_equal; lia.
    + intros v Hv. unfold nw. rewrite opp_isX by auto. reflexivity.
Qed.
Lemma cprod_opp_h : forall g v b y l, (forall u, In u l -> edge_type g v u = Some SIMPLE /\ opp g v u) ->
  cprod (fun u => ew g v u b (y u)) l = sq2p (- Z.of_nat (length l)) * sgn (b && parity y l).
Proof.
  intros g v b y l H. rewrite (cprod_ext _ _ (fun u => sq2p (-1) * sgn (b && y u))).
  - rewrite cprod_mult, cprod_const, cpow_sq2p, cprod_sgn_and. f_equal; f_equal; lia.
  - intros u Hu. destruct (H u Hu) as [A B]. unfold ew. rewrite A, opp_isX by auto. reflexivity.
Qed.
Lemma opp_sym : forall g u w, opp g u w -> opp g w u.
Proof. intros g u w [[]|[]]; [right|left]; auto. Qed.
Lemma bi_opp0 : forall g m u, bi_ok g m -> In u (bn0 m) -> opp g (fst (bv m)) u.
Proof. intros g m u H Hu. destruct (bi_t0 g m H u Hu) as [T _]. assert (O := bi_opp g m H). unfold opp in *. rewrite T. exact O. Qed.
Lemma bi_opp1 : forall g m u, bi_ok g m -> In u (bn1 m) -> opp g (snd (bv m)) u.
Proof. intros g m u H Hu. destruct (bi_t1 g m H u Hu) as [T _]. assert (O := opp_sym _ _ _ (bi_opp g m H)). unfold opp in *. rewrite T. exact O. Qed.
Lemma bi_opp01 : forall g m u w, bi_ok g m -> In u (bn0 m) -> In w (bn1 m) -> opp g u w.
Proof.
  intros g m u w H Hu Hw. destruct (bi_t0 g m H u Hu) as [T0 _]. destruct (bi_t1 g m H w Hw) as [T1 _].
  assert (O := opp_sym _ _ _ (bi_opp g m H)). unfold opp in *. rewrite T0, T1. exact O.
Qed.
Lemma opp_ne : forall g u w, opp g u w -> u <> w.
Proof. intros g u w [[A B]|[A B]] ->; congruence. Qed.
Lemma opp_B : forall g u w, opp g u w -> isB g u = false /\ isB g w = false.
Proof. intros g u w [[A B]|[A B]]; unfold isB; rewrite A, B; auto. Qed.

Lemma bi_local : forall g m core x, wfg g -> NoDup core -> bi_ok g m ->
  ~ In (fst (bv m)) core -> ~ In (snd (bv m)) core ->
  (forall u, In u (bn0 m) \/ In u (bn1 m) -> In u core) ->
  sumv (bvs m) (loc g (bvs m) core) x = sq2p (bpw m) * b_eff g m x.
Proof.
  intros g m core x W NC OK N0 N1 HC.
  set (v0 := fst (bv m)) in *. set (v1 := snd (bv m)) in *.
  assert (D := opp_ne g v0 v1 (bi_opp g m OK)). destruct (opp_B g v0 v1 (bi_opp g m OK)) as [B0 B1]. destruct (bi_ph g m OK) as [P0 P1]. fold v0 in P0. fold v1 in P1.
  change (bvs m) with [v0; v1].
  assert (Q : forall a b, loc g [v0; v1] core (upd (upd x v0 a) v1 b) =
    sq2p (-1) * sq2p (- Z.of_nat (length (bn0 m))) * sq2p (- Z.of_nat (length (bn1 m))) * Bt (parity x (bn0 m)) (parity x (bn1 m)) a b).
  { intros a b. rewrite (loc_pair g v0 v1 core (bn0 m) (bn1 m)); auto; try apply (bi_nd g m OK).
    2:{ intros u. rewrite (bi_n0 g m OK). split; [intros [U1 U2]; split; auto; apply HC; left; apply (bi_n0 g m OK); auto|intros [U1 U2]; split; auto; intros ->; contradiction]. }
    2:{ intros u. rewrite (bi_n1 g m OK). split; [intros [U1 U2]; split; auto; apply HC; right; apply (bi_n1 g m OK); auto|intros [U1 U2]; split; auto; intros ->; contradiction]. }
    rewrite (cprod_opp_h g v0 _ _ (bn0 m)) by (intros u Hu; split; [apply (bi_t0 g m OK); auto|apply bi_opp0; auto]).
    rewrite (cprod_opp_h g v1 _ _ (bn1 m)) by (intros u Hu; split; [apply (bi_t1 g m OK); auto|apply bi_opp1; auto]).
    assert (X0 : forall l, (forall u, In u l -> In u core) -> parity (upd (upd x v0 a) v1 b) l = parity x l).
    { intros l Hl. rewrite !parity_upd; auto. }
    rewrite !X0 by (intros; apply HC; auto).
    rewrite upd_same, upd_other, upd_same by auto.
    unfold pw. rewrite B0, B1, P0, P1.
    assert (Z0 : forall c, ephase 0%Qc c = C1) by (intros []; [exact cexp_0|reflexivity]). rewrite !Z0.
    unfold ew. rewrite (bi_edge g m OK : edge_type g v0 v1 = Some SIMPLE). rewrite (opp_isX g v0 v1 (bi_opp g m OK)). cbn [option_map tog toggle_edge wt].
    unfold Bt. ring. }
  cbn [sumv]. rewrite !Q.
  transitivity (sq2p (-1) * sq2p (- Z.of_nat (length (bn0 m))) * sq2p (- Z.of_nat (length (bn1 m))) *
    (Bt (parity x (bn0 m)) (parity x (bn1 m)) false false + Bt (parity x (bn0 m)) (parity x (bn1 m)) false true +
    (Bt (parity x (bn0 m)) (parity x (bn1 m)) true false + Bt (parity x (bn0 m)) (parity x (bn1 m)) true true))); [ring|].
  rewrite pivot_bits. unfold b_eff, b_es. rewrite cprod_opp_prod by (intros u w; apply bi_opp01; auto).
  rewrite !Cmult_assoc, <- !sq2p_add. f_equal. f_equal. unfold bpw. lia.
Qed.

(** ** A round *)
Definition bscal (ms : list bmatch) : Z := fold_right (fun m z => (bpw m + z)%Z) 0%Z ms.
Lemma bscal_prod : forall g ms x, cprod (fun m => sq2p (bpw m) * b_eff g m x) ms = sq2p (bscal ms) * cprod (fun m => b_eff g m x) ms.
Proof.
  intros g ms x. rewrite cprod_mult. f_equal. induction ms as [|m ms IH]; cbn [cprod bscal fold_right]; [reflexivity|].
  fold (bscal ms). rewrite sq2p_add, IH. reflexivity.
Qed.
Lemma sem_power : forall n g b, sem (on_scalar (s_add_power n) g) b = sq2p n * sem g b.
Proof.
  intros n g b. unfold sem. change (internal (on_scalar (s_add_power n) g)) with (internal g). change (vertices (on_scalar (s_add_power n) g)) with (vertices g).
  rewrite (sumv_ext _ _ (fun x => sq2p n * integL (vertices g) g x)) by (intros; rewrite integL_power; ring).
  apply (sumv_mult_indep (internal g) (fun _ => sq2p n)). reflexivity.
Qed.
Section Round.
  Variables (g : graph) (ms : list bmatch).
  Hypothesis ZX : zxok g.
  Hypothesis HO : forall m, In m ms -> bi_ok g m.
  Hypothesis HF : ForallOrdPairs (fun m m' => far g (bv m) (bv m')) ms.
  Let W := zx_wf g ZX.
  Let rem := flat_map bvs ms.
  Lemma bvs_in : forall m v, In v (bvs m) <-> v = fst (bv m) \/ v = snd (bv m).
  Proof. intros m v. unfold bvs. simpl. intuition. Qed.
  Lemma b_nr : NoDup rem.
  Proof.
    apply nodup_flat_map with (R := fun m m' => far g (bv m) (bv m')); auto.
    - intros m Hm. assert (D := opp_ne _ _ _ (bi_opp g m (HO m Hm))). unfold bvs. constructor; [simpl; intuition|]. constructor; [simpl; tauto|constructor].
    - intros a b u _ _ F Ha Hb. apply bvs_in in Ha, Hb. destruct (F u u Ha Hb) as [X _]. congruence.
  Qed.
  Lemma b_keep : forall m u, In m ms -> In u (bn0 m) \/ In u (bn1 m) -> In u (keep rem g).
  Proof.
    intros m u Hm Hu. assert (OK := HO m Hm).
    assert (X : exists v, (v = fst (bv m) \/ v = snd (bv m)) /\ edge_type g v u <> None /\ u <> fst (bv m) /\ u <> snd (bv m)).
    { assert (NL := zx_noloop g ZX). destruct Hu as [Hu|Hu]; [apply (bi_n0 g m OK) in Hu|apply (bi_n1 g m OK) in Hu]; destruct Hu as [A B].
      - exists (fst (bv m)). split; auto. split; auto. split; auto. intros ->. apply B, NL.
      - exists (snd (bv m)). split; auto. split; auto. split; auto. intros ->. apply B, NL. }
    destruct X as [v [Hv [E [N0 N1]]]]. apply in_keep. split; [apply (edge_type_in_l g u v); auto; rewrite (wf_sym g W); auto|].
    intros H. apply in_flat_map in H. destruct H as [m' [Hm' Hu']]. apply bvs_in in Hu'.
    destruct (FOP_in _ _ _ m m' HF Hm Hm') as [<-|[F|F]].
    - destruct Hu'; contradiction.
    - destruct (F v u Hv Hu'). contradiction.
    - destruct (F u v Hu' Hv) as [_ X]. rewrite (wf_sym g W) in X. contradiction.
  Qed.
  Lemma b_rem : forall v, In v rem -> In v (vertices g) /\ isB g v = false.
  Proof.
    intros v Hv. apply in_flat_map in Hv. destruct Hv as [m [Hm Hv]]. apply bvs_in in Hv. assert (OK := HO m Hm).
    destruct (opp_B _ _ _ (bi_opp g m OK)) as [B0 B1]. assert (E := bi_edge g m OK). destruct Hv as [->| ->]; split; auto.
    - apply (edge_type_in_l g _ (snd (bv m))); auto. congruence.
    - apply (edge_type_in_l g _ (fst (bv m))); auto. rewrite (wf_sym g W). congruence.
  Qed.
  Lemma b_table : exists tab, bialg ms g = Ok (mkRw g tab rem [] true) /\ tabL (keep rem g) tab /\ (forall e, snd (cnt e tab) = 0%nat) /\
    forall x, tabw g tab x = cprod (fun m => b_eff g m x) ms.
  Proof.
    destruct (bi_fold g (keep rem g) ms [] []) as [tab [E1 [E2 [E3 E4]]]]; [apply tabL_nil| |].
    { intros m s t Hm H. unfold b_es in H. apply in_prod_iff in H. destruct H as [H1 H2].
      split; [apply (opp_ne g), (bi_opp01 g m); auto|]. split; apply (b_keep m); auto. }
    exists tab. split; [unfold bialg; change (fold_left _ ms ([], [])) with (fold_left b_step ms ([], [])); rewrite E1; reflexivity|]. split; auto. split.
    - intros e. rewrite E3. reflexivity.
    - intros x. rewrite E4. unfold tabw. cbn [cprod map]. ring.
  Qed.
  Theorem bialg_core : forall o g1 g2 g3, bialg ms g = Ok o ->
    add_edge_table (rw_etab o) (rw_graph o) = Ok g1 -> remove_edges (rw_edges o) g1 = Ok g2 ->
    remove_vertices (rw_verts o) g2 = Ok g3 -> step_ok (on_scalar (s_add_power (- bscal ms)) g) g3.
  Proof.
    intros o g1 g2 g3 H E1 E2 E3. destruct b_table as [tab [X1 [X2 [_ X4]]]]. rewrite X1 in H. injection H as <-.
    cbn [rw_graph rw_etab rw_verts rw_edges] in *. injection E2 as <-.
    set (gs := on_scalar (s_add_power (- bscal ms)) g).
    assert (Zs : zxok gs).
    { apply (frame_zxok g); auto; [apply on_scalar_wfg; auto|apply on_scalar_frame|exact (zx_noloop g ZX)|exact (zx_ph g ZX)]. }
    apply (batch_sound gs rem g tab g1 g3); auto.
    - apply b_nr.
    - exact b_rem.
    - unfold same_frame, gs. simpl. tauto.
    - exact (zx_ph g ZX).
    - intros x. change (keep rem gs) with (keep rem g). change (tabw gs tab x) with (tabw g tab x). unfold rem at 1 2. rewrite (batch_sum _ bvs gs ms (keep rem g) x).
      2:{ fold rem. apply nodup_app; [apply b_nr|apply keep_nd; auto|]. intros v Hv Hk. apply in_keep in Hk. tauto. }
      2:{ eapply ForallOrdPairs_imp; [|exact HF]. intros a b _ _ F u w Hu Hw. apply bvs_in in Hu, Hw. apply (F u w); auto. }
      rewrite (cprod_ext _ _ (fun m => sq2p (bpw m) * b_eff g m x)).
      2:{ intros m Hm. change (loc gs (bvs m) (keep rem g)) with (loc g (bvs m) (keep rem g)). apply bi_local; auto; try (apply keep_nd; auto).
          - intros Y. apply in_keep in Y. apply Y. apply in_flat_map. exists m. split; auto. apply bvs_in; auto.
          - intros Y. apply in_keep in Y. apply Y. apply in_flat_map. exists m. split; auto. apply bvs_in; auto.
          - intros u. apply b_keep; auto. }
      rewrite bscal_prod, X4. unfold gs. rewrite integL_power.
      transitivity (integL (keep rem g) g x * (sq2p (- bscal ms) * sq2p (bscal ms)) * cprod (fun m => b_eff g m x) ms); [ring|].
      rewrite <- sq2p_add. replace (- bscal ms + bscal ms)%Z with 0%Z by lia. change (sq2p 0) with C1. ring.
  Qed.
  Lemma b_shape : exists o, bialg ms g = Ok o /\ shape g rem o /\ rw_edges o = [] /\ (forall e, snd (cnt e (rw_etab o)) = 0%nat) /\ rw_graph o = g.
  Proof.
    destruct b_table as [tab [X1 [X2 [X3 X4]]]]. eexists. split; [exact X1|]. split; [|auto].
    constructor; cbn [rw_graph rw_etab rw_verts rw_edges]; auto; try apply same_frame_refl; try apply b_nr.
    - intros v Hv. destruct (b_rem v Hv) as [A B]. split; auto. intros T. unfold isB in B. rewrite T in B. discriminate.
    - intros s t [].
  Qed.
End Round.

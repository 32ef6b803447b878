(** basicrules.strong_comp, copy_X and copy_Z *)
From Coq Require Import Reals ZArith QArith Qcanon List Bool Arith Lia Permutation.
From Verif Require Import CNum Base ScalarModel ScalarProofs GraphModel GraphSem SumLemmas GraphProofs GraphOps
  RulesModel RuleLemmas SpiderProofs IdProofs SimpModel ColorProofs InvProofs RuleShape GrowProofs LcompProofs PivotProofs
  BasicRulesModel BasicColor BasicFuse.
Import ListNotations.
Open Scope nat_scope.
Open Scope C_scope.

Lemma nd_disj : forall (A : Type) (l1 l2 : list A) a, NoDup (l1 ++ l2) -> In a l1 -> In a l2 -> False.
Proof.
  intros A l1. induction l1 as [|b l1 IH]; intros l2 a ND H1 H2; [contradiction|]. inversion ND; subst. destruct H1 as [<-|H1].
  - apply H3. apply in_or_app; auto.
  - eapply IH; eauto.
Qed.

(** ** The two loops over the neighbours *)
(** M: the pairs of a neighbour of a and the new vertex put before it *)
Record legged (g0 : graph) (a b : nat) (M : list (nat * nat)) (g : graph) : Prop := mklegged {
  lg_wf : wfg g;
  lg_vs : vertices g = vertices g0 ++ map snd M;
  lg_ty : forall u, In u (vertices g0) -> vty g u = vty g0 u;
  lg_tn : forall n, In n (map snd M) -> vty g n = vty g0 b;
  lg_ph : forall u, In u (vertices g0) -> phase g u = phase g0 u;
  lg_pn : forall n, In n (map snd M) -> phase g n = phase g0 b;
  lg_et : forall u w, In u (vertices g0) -> In w (vertices g0) -> edge_type g u w = edge_type g0 u w;
  lg_en : forall u n w, In (u, n) M -> edge_type g n w = if Nat.eqb w u then edge_type g0 a u else None;
  lg_in : ginputs g = ginputs g0;
  lg_out : goutputs g = goutputs g0;
  lg_sc : gscalar g = gscalar g0;
  lg_mf : forall u n, In (u, n) M -> In u (vertices g0)
}.
Lemma legged_nil : forall g a b, wfg g -> legged g a b [] g.
Proof. intros. constructor; auto; try (intros; contradiction). simpl. rewrite app_nil_r. reflexivity. Qed.

Lemma add_edge_fresh : forall s t et g, wfg g -> In s (vertices g) -> In t (vertices g) -> edge_type g s t = None ->
  exists g', add_edge s t et g = Ok g' /\ wfg g' /\ same_frame g g' /\ gphase g' = gphase g /\ gscalar g' = gscalar g /\
    forall u v, edge_type g' u v = if pair_hit s t u v then Some et else edge_type g u v.
Proof.
  intros s t et g W Is It N. unfold add_edge.
  destruct (dget s (gadj g)) as [ds|] eqn:Es.
  2:{ exfalso. apply dget_none in Es. apply Es. exact Is. }
  rewrite (edge_none_dget g s t ds Es) in N. rewrite N.
  destruct (set_edge_type_ok s t et (with_nedges (gnedges g + 1)%Z g) Is It) as [g' E]. exists g'. split; [exact E|].
  destruct (set_edge_type_spec _ _ _ _ _ (wfg_nedges _ _ W) E) as (W' & F & P & SC & _ & _ & X).
  split; [exact W'|]. split; [exact F|]. split; [exact P|]. split; [exact SC|]. exact X.
Qed.

Lemma leg_step : forall g0 a b M g vn, wfg g0 -> noloop g0 -> In a (vertices g0) -> In b (vertices g0) -> vty g0 b <> HBOX ->
  in02 (phase g0 b) -> vn <> b -> edge_type g0 a vn <> None -> legged g0 a b M g ->
  exists g' n, sc_leg a b (g, map snd M) vn = Ok (g', map snd (M ++ [(vn, n)])) /\ legged g0 a b (M ++ [(vn, n)]) g'.
Proof.
  intros g0 a b M g vn W0 NL0 Ia Ib HB IP D EN L. unfold sc_leg.
  assert (Iv : In vn (vertices g0)). { apply (neighbors_in g0 a vn); auto. apply neighbors_spec; auto. }
  apply Nat.eqb_neq in D. rewrite D. apply Nat.eqb_neq in D.
  assert (Ib' : In b (vertices g)) by (rewrite (lg_vs _ _ _ _ _ L); apply in_or_app; auto).
  assert (Ia' : In a (vertices g)) by (rewrite (lg_vs _ _ _ _ _ L); apply in_or_app; auto).
  assert (Iv' : In vn (vertices g)) by (rewrite (lg_vs _ _ _ _ _ L); apply in_or_app; auto).
  rewrite (vtype_r_ok g b (lg_wf _ _ _ _ _ L) Ib'). cbn [bind].
  rewrite (lg_ty _ _ _ _ _ L b Ib).
  match goal with |- context [add_vertex ?t ?q ?r None ?h] => destruct (add_vertex t q r None h) as [h1 n] eqn:EV end.
  assert (EV' : exists q r, add_vertex (vty g0 b) q r (Some 0%Qc) g = (h1, n)).
  { eexists. eexists. rewrite <- EV. unfold add_vertex. destruct (vtype_eqb (vty g0 b) HBOX) eqn:Z; [|reflexivity].
    exfalso. apply HB. destruct (vty g0 b); try discriminate; reflexivity. }
  clear EV. destruct EV' as (q & r & EV).
  destruct (add_vertex_spec _ _ _ _ _ _ _ (lg_wf _ _ _ _ _ L) EV) as (En & W1 & V1 & E1 & _ & T1 & P1 & I1 & O1 & S1).
  assert (Fn : ~ In n (vertices g)) by (rewrite En; apply fresh_not_in; apply L).
  assert (Ev : edge_type h1 a vn = edge_type g0 a vn) by (rewrite E1; apply (lg_et _ _ _ _ _ L); auto).
  destruct (edge_type g0 a vn) as [et|] eqn:EE; [|congruence]. rewrite Ev. cbn [of_opt bind].
  assert (Nn : forall w, edge_type h1 n w = None).
  { intros w. rewrite E1. destruct (edge_type g n w) eqn:Z; auto. exfalso. apply Fn.
    apply (neighbors_in g w n); [apply L|]. apply neighbors_spec. rewrite (wf_sym g (lg_wf _ _ _ _ _ L)). congruence. }
  destruct (add_edge_fresh n vn et h1 W1) as (h2 & E2 & W2 & F2 & P2 & S2 & X2).
  { rewrite V1. apply in_or_app. right. left; auto. } { rewrite V1. apply in_or_app. auto. } { apply Nn. }
  rewrite E2. cbn [bind].
  exists (set_phase n (phase h2 b) h2), n. split; [rewrite map_app; reflexivity|].
  assert (Db : b <> n) by (intros ->; auto). assert (Dv : vn <> n) by (intros ->; auto).
  assert (PH : forall u, phase h2 u = if Nat.eqb u n then qmod2 0%Qc else phase g u).
  { intros u. rewrite <- P1. unfold phase. rewrite P2. reflexivity. }
  assert (TH : forall u, vty h2 u = if Nat.eqb u n then vty g0 b else vty g u).
  { intros u. rewrite <- T1. apply same_frame_vty; auto. }
  assert (V2 : vertices h2 = vertices g ++ [n]) by (destruct F2 as (? & ? & ?); congruence).
  assert (Pb : phase h2 b = phase g0 b).
  { rewrite PH. rewrite (proj2 (Nat.eqb_neq b n) Db). apply (lg_ph _ _ _ _ _ L); auto. }
  assert (Eh : forall u w, edge_type (set_phase n (phase h2 b) h2) u w = if pair_hit n vn u w then Some et else edge_type g u w).
  { intros u w. change (edge_type h2 u w = if pair_hit n vn u w then Some et else edge_type g u w). rewrite X2, E1. reflexivity. }
  assert (old : forall u, In u (vertices g) -> Nat.eqb u n = false) by (intros u Hu; apply Nat.eqb_neq; intros ->; auto).
  assert (oldV : forall u, In u (vertices g0) -> In u (vertices g)) by (intros; rewrite (lg_vs _ _ _ _ _ L); apply in_or_app; auto).
  assert (oldM : forall u, In u (map snd M) -> In u (vertices g)) by (intros; rewrite (lg_vs _ _ _ _ _ L); apply in_or_app; auto).
  constructor.
  - apply set_phase_wfg; auto. rewrite V2. apply in_or_app. right; left; auto.
  - change (vertices h2 = vertices g0 ++ map snd (M ++ [(vn, n)])). rewrite V2, (lg_vs _ _ _ _ _ L), map_app, app_assoc. reflexivity.
  - intros u Hu. change (vty h2 u = vty g0 u). rewrite TH, old by auto. apply (lg_ty _ _ _ _ _ L); auto.
  - intros m Hm. change (vty h2 m = vty g0 b). rewrite TH. destruct (Nat.eqb m n) eqn:Z; auto.
    rewrite map_app in Hm. apply in_app_or in Hm. destruct Hm as [Hm|[<-|[]]]; [apply (lg_tn _ _ _ _ _ L); auto|].
    cbn [snd] in Z. rewrite Nat.eqb_refl in Z. discriminate.
  - intros u Hu. rewrite phase_set_phase, old, PH, old by auto. apply (lg_ph _ _ _ _ _ L); auto.
  - intros m Hm. rewrite phase_set_phase. destruct (Nat.eqb m n) eqn:Z.
    + rewrite Pb. apply qmod2_id; apply IP.
    + rewrite PH, Z. rewrite map_app in Hm. apply in_app_or in Hm. destruct Hm as [Hm|[<-|[]]]; [apply (lg_pn _ _ _ _ _ L); auto|].
      cbn [snd] in Z. rewrite Nat.eqb_refl in Z. discriminate.
  - intros u w Hu Hw. rewrite Eh. unfold pair_hit. rewrite (old u), (old w) by auto. cbn [andb orb].
    rewrite andb_false_r. cbn [orb]. apply (lg_et _ _ _ _ _ L); auto.
  - intros u m w Hm. rewrite Eh. apply in_app_or in Hm. destruct Hm as [Hm|[Hm|[]]].
    + assert (Im : In m (vertices g)) by (apply oldM; apply (in_map snd) in Hm; exact Hm).
      assert (Iu : In u (vertices g0)) by (eapply (lg_mf _ _ _ _ _ L); eauto).
      unfold pair_hit. rewrite (old m Im). cbn [andb orb].
      assert (Dmv : m <> vn). { intros ->. apply (in_map snd) in Hm. pose proof (wf_nd g (lg_wf _ _ _ _ _ L)) as ND.
        rewrite (lg_vs _ _ _ _ _ L) in ND. exact (nd_disj _ _ _ vn ND Iv Hm). }
      rewrite (proj2 (Nat.eqb_neq m vn) Dmv). cbn [andb]. rewrite ?andb_false_r. cbn [orb]. apply (lg_en _ _ _ _ _ L); auto.
    + injection Hm as <- <-. rewrite EE. unfold pair_hit. rewrite Nat.eqb_refl. cbn [andb orb].
      rewrite (proj2 (Nat.eqb_neq n vn)) by auto. cbn [andb]. rewrite ?orb_false_r, ?andb_false_r. cbn [orb]. rewrite ?orb_false_r.
      destruct (Nat.eqb w vn); auto. specialize (Nn w). rewrite E1 in Nn. exact Nn.
  - destruct F2 as (? & ? & ? & ? & ?). change (ginputs h2 = ginputs g0). rewrite <- (lg_in _ _ _ _ _ L). congruence.
  - destruct F2 as (? & ? & ? & ? & ?). change (goutputs h2 = goutputs g0). rewrite <- (lg_out _ _ _ _ _ L). congruence.
  - change (gscalar h2 = gscalar g0). rewrite <- (lg_sc _ _ _ _ _ L). congruence.
  - intros u m Hm. apply in_app_or in Hm. destruct Hm as [Hm|[Hm|[]]]; [eapply (lg_mf _ _ _ _ _ L); eauto|]. injection Hm as <- <-. auto.
Qed.

Lemma leg_fold : forall g0 a b ns M g, wfg g0 -> noloop g0 -> In a (vertices g0) -> In b (vertices g0) -> vty g0 b <> HBOX ->
  in02 (phase g0 b) -> (forall vn, In vn ns -> edge_type g0 a vn <> None) -> legged g0 a b M g ->
  exists g' M', foldM (sc_leg a b) ns (g, map snd M) = Ok (g', map snd (M ++ M')) /\ legged g0 a b (M ++ M') g' /\
    map fst M' = filter (fun u => negb (Nat.eqb u b)) ns.
Proof.
  intros g0 a b ns. induction ns as [|vn ns IH]; intros M g W0 NL Ia Ib HB IP EN L; cbn [foldM].
  - exists g, []. rewrite app_nil_r. auto.
  - cbn [filter]. destruct (Nat.eqb vn b) eqn:D; cbn [negb].
    + unfold sc_leg at 1. rewrite D. cbn [bind]. apply IH; auto. intros; apply EN; right; auto.
    + apply Nat.eqb_neq in D. destruct (leg_step g0 a b M g vn) as (g1 & n & E1 & L1); auto. { apply EN; left; auto. }
      rewrite E1. cbn [bind].
      destruct (IH (M ++ [(vn, n)]) g1) as (g' & M' & E' & L' & F'); auto. { intros; apply EN; right; auto. }
      exists g', ((vn, n) :: M'). rewrite <- app_assoc in E', L'. split; [exact E'|]. split; [exact L'|]. simpl. rewrite F'. reflexivity.
Qed.

(** ** The edges of the complete bipartite graph *)
Definition hitl (es : list (nat * nat)) (u w : nat) : bool := existsb (fun e => pair_hit (fst e) (snd e) u w) es.
Lemma kmn_fold : forall es g, wfg g -> NoDup es -> (forall s t, In (s, t) es -> ~ In (t, s) es) ->
  (forall s t, In (s, t) es -> In s (vertices g) /\ In t (vertices g) /\ edge_type g s t = None) ->
  exists g', foldM (fun g (e : nat * nat) => add_edge (fst e) (snd e) SIMPLE g) es g = Ok g' /\ wfg g' /\ same_frame g g' /\
    gphase g' = gphase g /\ gscalar g' = gscalar g /\
    forall u w, edge_type g' u w = if hitl es u w then Some SIMPLE else edge_type g u w.
Proof.
  induction es as [|[s t] es IH]; intros g W ND AS H; cbn [foldM fst snd].
  - exists g. split; [reflexivity|]. split; [exact W|]. split; [apply same_frame_refl|]. auto.
  - inversion ND as [|? ? N1 N2]; subst.
    destruct (H s t) as (Is & It & En); [left; auto|].
    destruct (add_edge_fresh s t SIMPLE g W Is It En) as (g1 & E1 & W1 & F1 & P1 & S1 & X1). rewrite E1. cbn [bind].
    destruct (IH g1) as (g' & E' & W' & F' & P' & S' & X'); auto.
    { intros s' t' A B. apply (AS s' t'); right; auto. }
    { intros s' t' A. destruct (H s' t') as (Is' & It' & En'); [right; auto|].
      assert (V1 : vertices g1 = vertices g) by (destruct F1 as (? & ? & ?); congruence). rewrite V1. split; auto. split; auto.
      rewrite X1. unfold pair_hit.
      destruct (Nat.eqb s' s && Nat.eqb t' t || Nat.eqb s' t && Nat.eqb t' s) eqn:Z; auto. exfalso.
      apply orb_true_iff in Z. rewrite !andb_true_iff, !Nat.eqb_eq in Z. destruct Z as [[-> ->] | [-> ->]]; [auto|].
      apply (AS s t); [left; auto|right; auto]. }
    exists g'. split; [exact E'|]. split; [exact W'|]. split; [eapply same_frame_trans; eauto|]. split; [congruence|]. split; [congruence|].
    intros u w. rewrite X', X1. unfold hitl. cbn [existsb fst snd]. destruct (existsb _ es), (pair_hit s t u w); reflexivity.
Qed.

(** ** The sum over the new vertices *)
Definition Pl (f : nat -> bool -> C) (d : bool) (l : list nat) : C := cprod (fun n => f n false + sgn d * f n true) l.
Lemma cprod_sw : forall (F : nat -> nat -> C) l1 l2, cprod (fun a => cprod (F a) l2) l1 = cprod (fun b => cprod (fun a => F a b) l1) l2.
Proof.
  intros F. induction l1 as [|a l1 IH]; intros l2; simpl; [symmetry; apply cprod_1; auto|]. rewrite IH, <- cprod_mult. auto.
Qed.
Lemma parity_ext : forall x y l, (forall u, In u l -> x u = y u) -> parity x l = parity y l.
Proof. intros x y l. unfold parity. induction l as [|u l IH]; intros H; simpl; auto. rewrite H, IH; auto; [intros; apply H; right; auto|left; auto]. Qed.
Lemma cprod_scal : forall (c : Z) (F : nat -> C) l, cprod (fun n => sq2p c * F n) l = sq2p (c * Z.of_nat (length l)) * cprod F l.
Proof. intros. rewrite cprod_mult, cprod_const, cpow_sq2p. reflexivity. Qed.
Lemma sgn_and_xor : forall z a b, sgn (z && xorb a b) = sgn (z && a) * sgn (z && b).
Proof. intros [] [] []; unfold sgn; cbn; ring. Qed.
Lemma quarter_sum : forall (P : bool -> C) d, P d = sq2p (-2) * (P false + P true + sgn d * P false + sgn (negb d) * P true).
Proof.
  intros P d. assert (E : sq2p (-2) * (C1 + C1) = C1) by (rewrite <- sq2p_2, <- sq2p_add; reflexivity).
  destruct d; unfold sgn; cbn [negb].
  - transitivity ((sq2p (-2) * (C1 + C1)) * P true); [rewrite E; ring|ring].
  - transitivity ((sq2p (-2) * (C1 + C1)) * P false); [rewrite E; ring|ring].
Qed.
Lemma sgn_sum : forall (f : nat -> bool -> C) pb z N x, NoDup N ->
  sumv N (fun y => cprod (fun n => sgn (pb && y n) * f n (y n)) N * sgn (z && parity y N)) x = Pl f (xorb pb z) N.
Proof.
  intros f pb z N x ND. unfold Pl.
  rewrite (sumv_ext N _ (fun y => cprod (fun n => (fun n b (_ : assignment) => sgn (pb && b) * f n b * sgn (z && b)) n (y n) y) N)).
  - rewrite (sumv_factor N (fun n b (_ : assignment) => sgn (pb && b) * f n b * sgn (z && b))) by auto. apply cprod_ext. intros n _. rewrite !andb_false_r, !andb_true_r.
    destruct pb, z; unfold sgn; cbn; ring.
  - intros y. rewrite <- cprod_sgn_and, <- cprod_mult. reflexivity.
Qed.
Lemma kmn_sum : forall (f : nat -> bool -> C) (pa pb : bool) N1 N2 x, NoDup (N1 ++ N2) ->
  sumv (N1 ++ N2) (fun y => cprod (fun n => sgn (pb && y n) * f n (y n)) N1 * cprod (fun m => sgn (pa && y m) * f m (y m)) N2
     * cprod (fun n => cprod (fun m => sq2p (-1) * sgn (y n && y m)) N2) N1) x
  = sq2p (- (Z.of_nat (length N1) * Z.of_nat (length N2)) - 2)
    * (Pl f pb N1 * Pl f false N2 + Pl f pb N1 * Pl f true N2
       + sgn pa * (Pl f (negb pb) N1 * Pl f false N2) + sgn (negb pa) * (Pl f (negb pb) N1 * Pl f true N2)).
Proof.
  intros f pa pb N1 N2 x ND.
  assert (ND1 : NoDup N1). { clear -ND. induction N1 as [|a N IH]; [constructor|]. inversion ND; subst. constructor; auto. intros X; apply H1; apply in_or_app; auto. }
  assert (ND2 : NoDup N2). { clear -ND. induction N1 as [|a N IH]; auto. inversion ND; subst; auto. }
  assert (DJ : forall a, In a N1 -> In a N2 -> False) by (intros a; apply nd_disj; auto).
  rewrite sumv_app. set (k := Z.of_nat (length N1)). set (l := Z.of_nat (length N2)).
  transitivity (sumv N1 (fun y => sq2p (- (k * l)) * (cprod (fun n => sgn (pb && y n) * f n (y n)) N1 * Pl f (xorb pa (parity y N1)) N2)) x).
  { apply sumv_ext. intros y0.
    set (A := fun y : assignment => cprod (fun n => sgn (pb && y n) * f n (y n)) N1).
    set (h := fun m b (y : assignment) => sgn (pa && b) * f m b * (sq2p (- k) * sgn (b && parity y N1))).
    rewrite (sumv_ext N2 _ (fun y => A y * cprod (fun m => h m (y m) y) N2)).
    - rewrite sumv_mult_indep.
      + rewrite (sumv_factor N2 h); auto.
        * change (A y0 * cprod (fun v => h v false y0 + h v true y0) N2 = sq2p (- (k * l)) * (A y0 * Pl f (xorb pa (parity y0 N1)) N2)).
          rewrite (cprod_ext _ (fun v => h v false y0 + h v true y0) (fun v => sq2p (- k) * (f v false + sgn (xorb pa (parity y0 N1)) * f v true))).
          -- rewrite cprod_scal. unfold Pl. replace (- (k * l))%Z with (- k * Z.of_nat (length N2))%Z by (unfold l; ring). ring.
          -- intros m _. unfold h. rewrite !andb_false_r, !andb_true_r. destruct pa, (parity y0 N1); unfold sgn; cbn; ring.
        * intros v b y w c Hv Hw. unfold h. rewrite (parity_ext (upd y w c) y); auto. intros u Hu. apply upd_other. intros ->. eapply DJ; eauto.
      + intros y v b Hv. unfold A. apply cprod_ext. intros n Hn. rewrite upd_other; auto. intros ->. eapply DJ; eauto.
    - intros y. fold (A y). rewrite cprod_sw. unfold h. rewrite (cprod_mult _ (fun m => sgn (pa && y m) * f m (y m)) (fun m => sq2p (- k) * sgn (y m && parity y N1))).
      rewrite (cprod_ext _ (fun b => cprod (fun a => sq2p (-1) * sgn (y a && y b)) N1) (fun m => sq2p (- k) * sgn (y m && parity y N1))); [ring|].
      intros m _. rewrite cprod_scal. rewrite <- cprod_sgn_and. unfold k. replace (-1 * Z.of_nat (length N1))%Z with (- Z.of_nat (length N1))%Z by ring.
      f_equal. apply cprod_ext. intros; rewrite andb_comm; auto. }
  set (A := fun y : assignment => cprod (fun n => sgn (pb && y n) * f n (y n)) N1).
  rewrite (sumv_ext N1 _ (fun y => sq2p (- (k * l) - 2) *
     ((Pl f false N2 + Pl f true N2) * (A y * sgn (false && parity y N1))
      + (sgn pa * Pl f false N2 + sgn (negb pa) * Pl f true N2) * (A y * sgn (true && parity y N1))))).
  2:{ intros y. fold (A y). rewrite (quarter_sum (fun d => Pl f d N2)).
      replace (- (k * l) - 2)%Z with (- (k * l) + -2)%Z by ring. rewrite sq2p_add.
      destruct pa, (parity y N1); unfold sgn; cbn [andb xorb negb]; ring. }
  rewrite sumv_scal, sumv_plus, !sumv_scal. unfold A. rewrite (sgn_sum f pb false), (sgn_sum f pb true) by auto.
  rewrite xorb_false_r, xorb_true_r. f_equal. ring.
Qed.

(** ** The sum over the two old vertices *)
Lemma pair_sum : forall pa pb (p1 p2 : bool -> C) (k l : Z) , 
  let T := fun a b : bool => sgn (pa && a) * sgn (pb && b) * (sq2p (-1) * sgn (a && b)) in
  T false false * ((sq2p (- k) * p1 false) * (sq2p (- l) * p2 false)) + T false true * ((sq2p (- k) * p1 false) * (sq2p (- l) * p2 true))
  + (T true false * ((sq2p (- k) * p1 true) * (sq2p (- l) * p2 false)) + T true true * ((sq2p (- k) * p1 true) * (sq2p (- l) * p2 true)))
  = sgn (pa && pb) * sq2p ((k - 1) * (l - 1)) * (sq2p (- (k * l) - 2) *
     (p1 pb * p2 false + p1 pb * p2 true + sgn pa * (p1 (negb pb) * p2 false) + sgn (negb pa) * (p1 (negb pb) * p2 true))).
Proof.
  intros. subst T. cbn beta.
  transitivity (sgn (pa && pb) * (sq2p ((k - 1) * (l - 1) + (- (k * l) - 2)) *
     (p1 pb * p2 false + p1 pb * p2 true + sgn pa * (p1 (negb pb) * p2 false) + sgn (negb pa) * (p1 (negb pb) * p2 true)))).
  2: rewrite sq2p_add; ring.
  replace ((k - 1) * (l - 1) + (- (k * l) - 2))%Z with (-1 + (- k + - l))%Z by ring. rewrite !sq2p_add.
  destruct pa, pb; unfold sgn; cbn [andb negb]; ring.
Qed.

(** ** The graph before the removal of the two old vertices *)
Record comped (g : graph) (v1 v2 : nat) (M1 M2 : list (nat * nat)) (h : graph) : Prop := mkcomped {
  c_wf : wfg h;
  c_vs : vertices h = vertices g ++ map snd M1 ++ map snd M2;
  c_ty : forall u, In u (vertices g) -> vty h u = vty g u;
  c_t1 : forall n, In n (map snd M1) -> vty h n = vty g v2;
  c_t2 : forall n, In n (map snd M2) -> vty h n = vty g v1;
  c_ph : forall u, In u (vertices g) -> phase h u = phase g u;
  c_p1 : forall n, In n (map snd M1) -> phase h n = phase g v2;
  c_p2 : forall n, In n (map snd M2) -> phase h n = phase g v1;
  c_et : forall u w, In u (vertices g) -> In w (vertices g) -> edge_type h u w = edge_type g u w;
  c_e1 : forall u n w, In (u, n) M1 -> edge_type h n w = if Nat.eqb w u then edge_type g v1 u else if mem w (map snd M2) then Some SIMPLE else None;
  c_e2 : forall u n w, In (u, n) M2 -> edge_type h n w = if Nat.eqb w u then edge_type g v2 u else if mem w (map snd M1) then Some SIMPLE else None;
  c_in : ginputs h = ginputs g;
  c_out : goutputs h = goutputs g;
  c_u1 : forall u, In u (map fst M1) <-> edge_type g v1 u <> None /\ u <> v2;
  c_u2 : forall u, In u (map fst M2) <-> edge_type g v2 u <> None /\ u <> v1;
  c_n1 : NoDup (map fst M1);
  c_n2 : NoDup (map fst M2)
}.
Lemma list_prod_nd : forall (l1 l2 : list nat), NoDup l1 -> NoDup l2 -> NoDup (list_prod l1 l2).
Proof.
  induction l1 as [|a l1 IH]; intros l2 N1 N2; [constructor|]. inversion N1; subst. simpl. apply nodup_app; auto.
  - clear -N2. induction N2; simpl; constructor; auto. intros X. apply in_map_iff in X. destruct X as [y [E Hy]]. injection E as <-. auto.
  - intros [u w] X Y. apply in_map_iff in X. destruct X as [y [E Hy]]. injection E as -> <-. apply in_prod_iff in Y. tauto.
Qed.
Lemma hitl_prod : forall l1 l2 u w, hitl (list_prod l1 l2) u w = ((mem u l1 && mem w l2) || (mem w l1 && mem u l2))%bool.
Proof.
  intros. apply eq_true_iff_eq. unfold hitl. rewrite existsb_exists, orb_true_iff, !andb_true_iff, !mem_spec. split.
  - intros [[s t] [H1 H2]]. apply in_prod_iff in H1. cbn [fst snd] in H2. unfold pair_hit in H2.
    rewrite orb_true_iff, !andb_true_iff, !Nat.eqb_eq in H2. destruct H2 as [[-> ->] | [-> ->]]; tauto.
  - intros [[A B] | [A B]].
    + exists (u, w). split; [apply in_prod_iff; auto|]. unfold pair_hit; cbn. rewrite !Nat.eqb_refl. reflexivity.
    + exists (w, u). split; [apply in_prod_iff; auto|]. unfold pair_hit; cbn. rewrite !Nat.eqb_refl. apply orb_true_r.
Qed.
Lemma not_vertex_none : forall g u w, wfg g -> ~ In u (vertices g) -> edge_type g u w = None.
Proof.
  intros g u w W N. destruct (edge_type g u w) eqn:E; auto. exfalso. apply N. apply (neighbors_in g w u W). apply neighbors_spec. rewrite (wf_sym g W). congruence.
Qed.

Lemma comp_ok : forall v1 v2 g, zxok g -> In v1 (vertices g) -> In v2 (vertices g) -> v1 <> v2 ->
  exists g1 g2 h M1 M2, foldM (sc_leg v1 v2) (neighbors g v1) (g, []) = Ok (g1, map snd M1) /\ In v2 (vertices g1) /\
    foldM (sc_leg v2 v1) (neighbors g1 v2) (g1, []) = Ok (g2, map snd M2) /\
    foldM (fun g (e : nat * nat) => add_edge (fst e) (snd e) SIMPLE g) (list_prod (map snd M1) (map snd M2)) g2 = Ok h /\
    comped g v1 v2 M1 M2 h /\ gscalar h = gscalar g.
Proof.
  intros v1 v2 g ZX I1 I2 D12. assert (W := zx_wf g ZX). assert (NL := zx_noloop g ZX).
  destruct (leg_fold g v1 v2 (neighbors g v1) [] g) as (g1 & M1 & E1 & L1 & F1); auto.
  { apply (zx_zx g ZX); auto. } { apply (zx_ph g ZX); auto. } { intros vn Hn. apply neighbors_spec; auto. } { apply legged_nil; auto. }
  cbn [map app] in E1, L1.
  assert (U1 : forall u, In u (map fst M1) <-> edge_type g v1 u <> None /\ u <> v2).
  { intros u. rewrite F1, filter_In, neighbors_spec, negb_true_iff, Nat.eqb_neq. tauto. }
  assert (ND1 := wf_nd g1 (lg_wf _ _ _ _ _ L1)). rewrite (lg_vs _ _ _ _ _ L1) in ND1. apply nodup_app_inv in ND1. destruct ND1 as (NDV & NDN1 & DJ1).
  assert (oldV : forall u, In u (vertices g) -> In u (vertices g1)) by (intros; rewrite (lg_vs _ _ _ _ _ L1); apply in_or_app; auto).
  assert (SN : forall n, In n (map snd M1) -> exists u, In (u, n) M1 /\ In u (map fst M1)).
  { intros n Hn. apply in_map_iff in Hn. destruct Hn as [[u n'] [<- Hn]]. exists u. split; auto. apply (in_map fst) in Hn. exact Hn. }
  assert (Ev2 : forall w, edge_type g1 v2 w = edge_type g v2 w).
  { intros w. destruct (in_dec Nat.eq_dec w (vertices g)) as [Hw|Hw]; [apply (lg_et _ _ _ _ _ L1); auto|].
    rewrite (wf_sym g W v2 w), (not_vertex_none g w) by auto. rewrite (wf_sym g1 (lg_wf _ _ _ _ _ L1)).
    destruct (in_dec Nat.eq_dec w (map snd M1)) as [Hn|Hn].
    - destruct (SN w Hn) as (u & Hu & Hu'). rewrite (lg_en _ _ _ _ _ L1 u w v2 Hu). apply U1 in Hu'. destruct Hu' as [_ Hu'].
      rewrite (proj2 (Nat.eqb_neq v2 u)) by auto. reflexivity.
    - apply not_vertex_none; [apply L1|]. rewrite (lg_vs _ _ _ _ _ L1). intros X. apply in_app_or in X. tauto. }
  assert (NL1 : noloop g1).
  { intros u. destruct (in_dec Nat.eq_dec u (vertices g)) as [Hu|Hu]; [rewrite (lg_et _ _ _ _ _ L1); auto|].
    destruct (in_dec Nat.eq_dec u (map snd M1)) as [Hn|Hn].
    - destruct (SN u Hn) as (w & Hw & _). rewrite (lg_en _ _ _ _ _ L1 w u u Hw).
      destruct (Nat.eqb u w) eqn:Z; auto. apply Nat.eqb_eq in Z. subst w. exfalso. apply Hu. eapply (lg_mf _ _ _ _ _ L1); eauto.
    - apply not_vertex_none; [apply L1|]. rewrite (lg_vs _ _ _ _ _ L1). intros X. apply in_app_or in X. tauto. }
  destruct (leg_fold g1 v2 v1 (neighbors g1 v2) [] g1) as (g2 & M2 & E2 & L2 & F2); auto.
  { apply L1. } { rewrite (lg_ty _ _ _ _ _ L1) by auto. apply (zx_zx g ZX); auto. } { rewrite (lg_ph _ _ _ _ _ L1) by auto. apply (zx_ph g ZX); auto. }
  { intros vn Hn. apply neighbors_spec; auto. } { apply legged_nil; apply L1. }
  cbn [map app] in E2, L2.
  assert (U2 : forall u, In u (map fst M2) <-> edge_type g v2 u <> None /\ u <> v1).
  { intros u. rewrite F2, filter_In, neighbors_spec, Ev2, negb_true_iff, Nat.eqb_neq. tauto. }
  assert (V2 : vertices g2 = vertices g ++ map snd M1 ++ map snd M2) by (rewrite (lg_vs _ _ _ _ _ L2), (lg_vs _ _ _ _ _ L1), app_assoc; auto).
  assert (ND2 := wf_nd g2 (lg_wf _ _ _ _ _ L2)). rewrite (lg_vs _ _ _ _ _ L2) in ND2. apply nodup_app_inv in ND2. destruct ND2 as (_ & NDN2 & DJ2).
  assert (SN2 : forall n, In n (map snd M2) -> exists u, In (u, n) M2 /\ In u (map fst M2)).
  { intros n Hn. apply in_map_iff in Hn. destruct Hn as [[u n'] [<- Hn]]. exists u. split; auto. apply (in_map fst) in Hn. exact Hn. }
  assert (inV1 : forall n, In n (map snd M1) -> In n (vertices g1)) by (intros; rewrite (lg_vs _ _ _ _ _ L1); apply in_or_app; auto).
  assert (U2V : forall u, In u (map fst M2) -> In u (vertices g)).
  { intros u Hu. apply U2 in Hu. destruct Hu as [Hu _]. apply (neighbors_in g v2 u W). apply neighbors_spec; auto. }
  assert (U1V : forall u, In u (map fst M1) -> In u (vertices g)).
  { intros u Hu. apply U1 in Hu. destruct Hu as [Hu _]. apply (neighbors_in g v1 u W). apply neighbors_spec; auto. }
  (* the edges of the new vertices in g2 *)
  assert (EN1 : forall u n w, In (u, n) M1 -> edge_type g2 n w = if Nat.eqb w u then edge_type g v1 u else None).
  { intros u n w H. assert (Hn := in_map snd _ _ H). cbn [snd] in Hn. assert (Hu := in_map fst _ _ H). cbn [fst] in Hu.
    destruct (in_dec Nat.eq_dec w (vertices g1)) as [Hw|Hw].
    - rewrite (lg_et _ _ _ _ _ L2) by auto. apply (lg_en _ _ _ _ _ L1); auto.
    - rewrite (proj2 (Nat.eqb_neq w u)) by (intros ->; apply Hw; auto). rewrite (wf_sym g2 (lg_wf _ _ _ _ _ L2)).
      destruct (in_dec Nat.eq_dec w (map snd M2)) as [Hw2|Hw2].
      + destruct (SN2 w Hw2) as (u' & Hu' & Hf). rewrite (lg_en _ _ _ _ _ L2 u' w n Hu').
        rewrite (proj2 (Nat.eqb_neq n u')); auto. intros ->. apply (DJ1 u'); auto.
      + apply not_vertex_none; [apply L2|]. rewrite (lg_vs _ _ _ _ _ L2). intros X. apply in_app_or in X. tauto. }
  assert (EN2 : forall u n w, In (u, n) M2 -> edge_type g2 n w = if Nat.eqb w u then edge_type g v2 u else None).
  { intros u n w H. rewrite (lg_en _ _ _ _ _ L2 u n w H), Ev2. reflexivity. }
  destruct (kmn_fold (list_prod (map snd M1) (map snd M2)) g2) as (h & Eh & Wh & Fh & Ph & Sh & Xh).
  { apply L2. } { apply list_prod_nd; auto. }
  { intros s t A B. apply in_prod_iff in A. apply in_prod_iff in B. apply (DJ2 s); [apply inV1|]; tauto. }
  { intros s t A. apply in_prod_iff in A. destruct A as [A B]. rewrite V2. split; [apply in_or_app; right; apply in_or_app; auto|].
    split; [apply in_or_app; right; apply in_or_app; auto|]. destruct (SN s A) as (u & Hu & Hf). rewrite (EN1 u s t Hu).
    rewrite (proj2 (Nat.eqb_neq t u)); auto. intros ->. apply (DJ2 u); auto. }
  exists g1, g2, h, M1, M2. split; [exact E1|]. split; [auto|]. split; [exact E2|]. split; [exact Eh|].
  assert (Vh : vertices h = vertices g2) by (destruct Fh; auto).
  assert (VM1 : forall u, In u (vertices g) -> mem u (map snd M1) = false) by (intros u Hu; apply mem_false; intros X; apply (DJ1 u); auto).
  assert (VM2 : forall u, In u (vertices g1) -> mem u (map snd M2) = false) by (intros u Hu; apply mem_false; intros X; apply (DJ2 u); auto).
  assert (PHh : forall u, phase h u = phase g2 u) by (intros; unfold phase; rewrite Ph; auto).
  assert (TYh : forall u, vty h u = vty g2 u) by (intros; apply same_frame_vty; auto).
  split.
  2:{ rewrite Sh, (lg_sc _ _ _ _ _ L2). apply (lg_sc _ _ _ _ _ L1). }
  constructor.
  - exact Wh.
  - congruence.
  - intros u Hu. rewrite TYh, (lg_ty _ _ _ _ _ L2), (lg_ty _ _ _ _ _ L1); auto.
  - intros n Hn. rewrite TYh, (lg_ty _ _ _ _ _ L2), (lg_tn _ _ _ _ _ L1); auto.
  - intros n Hn. rewrite TYh, (lg_tn _ _ _ _ _ L2), (lg_ty _ _ _ _ _ L1); auto.
  - intros u Hu. rewrite PHh, (lg_ph _ _ _ _ _ L2), (lg_ph _ _ _ _ _ L1); auto.
  - intros n Hn. rewrite PHh, (lg_ph _ _ _ _ _ L2), (lg_pn _ _ _ _ _ L1); auto.
  - intros n Hn. rewrite PHh, (lg_pn _ _ _ _ _ L2), (lg_ph _ _ _ _ _ L1); auto.
  - intros u w Hu Hw. rewrite Xh, hitl_prod, (VM1 u), (VM1 w) by auto. cbn [andb orb]. rewrite (lg_et _ _ _ _ _ L2), (lg_et _ _ _ _ _ L1); auto.
  - intros u n w H. assert (Hn := in_map snd _ _ H). cbn [snd] in Hn. assert (Hu := in_map fst _ _ H). cbn [fst] in Hu.
    rewrite Xh, hitl_prod, (VM2 n), (proj2 (mem_spec n (map snd M1)) Hn) by auto. rewrite andb_false_r, orb_false_r. cbn [andb].
    rewrite (EN1 u n w H). destruct (Nat.eqb w u) eqn:Z; auto. apply Nat.eqb_eq in Z. subst w. rewrite (VM2 u) by auto. auto.
  - intros u n w H. assert (Hn := in_map snd _ _ H). cbn [snd] in Hn. assert (Hu := in_map fst _ _ H). cbn [fst] in Hu.
    assert (N1 : mem n (map snd M1) = false) by (apply mem_false; intros X; apply (DJ2 n); auto).
    rewrite Xh, hitl_prod, N1, (proj2 (mem_spec n (map snd M2)) Hn). cbn [andb orb]. rewrite andb_true_r.
    rewrite (EN2 u n w H). destruct (Nat.eqb w u) eqn:Z; auto. apply Nat.eqb_eq in Z. subst w. rewrite (VM1 u) by auto. auto.
  - transitivity (ginputs g2). { destruct Fh as (? & ? & ? & ?); auto. } rewrite (lg_in _ _ _ _ _ L2). apply (lg_in _ _ _ _ _ L1).
  - transitivity (goutputs g2). { destruct Fh as (? & ? & ? & ? & ?); auto. } rewrite (lg_out _ _ _ _ _ L2). apply (lg_out _ _ _ _ _ L1).
  - exact U1.
  - exact U2.
  - rewrite F1. apply NoDup_filter. apply neighbors_nd; auto.
  - rewrite F2. apply NoDup_filter. apply neighbors_nd. apply L1.
Qed.

(** ** The map of the composed graph *)
Lemma gen_sum : forall g A L x, (forall v, In v A -> ~ In v L) -> sumv A (integL (A ++ L) g) x = integL L g x * sumv A (loc g A L) x.
Proof.
  intros g A L x N. rewrite <- (sumv_mult_indep A (integL L g)).
  - apply sumv_ext. intros y. rewrite integL_app. reflexivity.
  - intros y u b Hu. apply integL_indep; auto.
Qed.
Lemma pprod_one : forall (F : nat -> nat -> C) l, (forall u w, In u l -> In w l -> F u w = C1) -> pprod F l = C1.
Proof.
  intros F l. induction l as [|a l IH]; intros H; simpl; auto. rewrite IH by (intros; apply H; right; auto).
  rewrite cprod_1; [ring|]. intros w Hw. apply H; [left; auto|right; auto].
Qed.
(** the factor of one old vertex as a sum over the bit of the new one *)
Lemma leg_factor : forall g gf v1 v2 (M : list (nat * nat)) core x a, wfg g -> NoDup core -> NoDup (map fst M) ->
  isX g v1 = negb (isX g v2) ->
  (forall u, In u (map fst M) <-> In u core /\ edge_type g v1 u <> None) ->
  (forall u n, In (u, n) M -> isX gf n = isX g v2) -> (forall u, In u core -> isX gf u = isX g u) ->
  (forall u n w, In (u, n) M -> In w core -> edge_type gf n w = if Nat.eqb w u then edge_type g v1 u else None) ->
  cprod (fun v => ew g v1 v a (x v)) core
  = sq2p (- Z.of_nat (length (map snd M))) * Pl (fun n b => cprod (fun v => ew gf n v b (x v)) core) a (map snd M).
Proof.
  intros g gf v1 v2 M core x a W NDc NDm HX HM HN HC HE.
  rewrite (cprod_nbrs g v1 core (map fst M)); auto.
  2:{ intros v Ev. unfold ew. rewrite Ev. reflexivity. }
  unfold Pl. rewrite !cprod_map.
  rewrite (cprod_ext _ (fun p => ew g v1 (fst p) a (x (fst p)))
    (fun p => sq2p (-1) * (cprod (fun v => ew gf (snd p) v false (x v)) core + sgn a * cprod (fun v => ew gf (snd p) v true (x v)) core))).
  - rewrite cprod_mult, cprod_const, cpow_sq2p, map_length. f_equal; f_equal; try lia.
  - intros [u n] Hp. cbn [fst snd]. assert (Hu := in_map fst _ _ Hp). cbn [fst] in Hu. destruct (proj1 (HM u) Hu) as [Hc Hn].
    assert (one : forall b, cprod (fun v => ew gf n v b (x v)) core = ew gf n u b (x u)).
    { intros b. transitivity (cprod (fun v => ew gf n v b (x v)) [u]); [|cbn [cprod]; ring]. apply (cprod_nbrs gf n); auto.
      - constructor; [intros []|constructor].
      - intros v. split.
        + intros [<-|[]]. split; auto. rewrite (HE u n u Hp Hc), Nat.eqb_refl. auto.
        + intros [Hv1 Hv2]. rewrite (HE u n v Hp Hv1) in Hv2. destruct (Nat.eqb v u) eqn:Z; [|congruence]. apply Nat.eqb_eq in Z. left; auto.
      - intros v Ev. unfold ew. rewrite Ev. reflexivity. }
    rewrite !one. unfold ew. rewrite (HE u n u Hp Hc), Nat.eqb_refl, (HN u n Hp), (HC u Hc), HX.
    destruct (edge_type g v1 u) as [et|]; [|congruence]. cbn [option_map]. rewrite <- wt_toggle. f_equal. f_equal.
    destruct (isX g v2), (isX g u), et; reflexivity.
Qed.

Lemma comp_sum : forall g gf v1 v2 (M1 M2 : list (nat * nat)) core x, zxok g -> NoDup core -> NoDup (map snd M1 ++ map snd M2 ++ core) ->
  In v1 (vertices g) -> In v2 (vertices g) -> v1 <> v2 -> ~ In v1 core -> ~ In v2 core ->
  isB g v1 = false -> isB g v2 = false -> isX g v1 = negb (isX g v2) -> is_pauli (phase g v1) = true -> is_pauli (phase g v2) = true ->
  edge_type g v1 v2 = Some SIMPLE ->
  NoDup (map fst M1) -> NoDup (map fst M2) ->
  (forall u, In u (map fst M1) <-> In u core /\ edge_type g v1 u <> None) ->
  (forall u, In u (map fst M2) <-> In u core /\ edge_type g v2 u <> None) ->
  (forall n, In n (map snd M1) -> vty gf n = vty g v2 /\ phase gf n = phase g v2) ->
  (forall n, In n (map snd M2) -> vty gf n = vty g v1 /\ phase gf n = phase g v1) ->
  (forall u, In u core -> vty gf u = vty g u) ->
  (forall u n w, In (u, n) M1 -> In w core -> edge_type gf n w = if Nat.eqb w u then edge_type g v1 u else None) ->
  (forall u n w, In (u, n) M2 -> In w core -> edge_type gf n w = if Nat.eqb w u then edge_type g v2 u else None) ->
  (forall n m, In n (map snd M1) -> In m (map snd M1) -> edge_type gf n m = None) ->
  (forall n m, In n (map snd M2) -> In m (map snd M2) -> edge_type gf n m = None) ->
  (forall n m, In n (map snd M1) -> In m (map snd M2) -> edge_type gf n m = Some SIMPLE) ->
  sumv [v1; v2] (loc g [v1; v2] core) x
  = sgn (pbit (phase g v1) && pbit (phase g v2)) * sq2p ((Z.of_nat (length (map snd M1)) - 1) * (Z.of_nat (length (map snd M2)) - 1))
    * sumv (map snd M1 ++ map snd M2) (loc gf (map snd M1 ++ map snd M2) core) x.
Proof.
  intros g gf v1 v2 M1 M2 core x ZX NDc NDA I1 I2 D12 C1' C2' B1 B2 HX P1 P2 E12 ND1 ND2 U1 U2 T1 T2 TC EM1 EM2 E11 E22 E1x2.
  assert (W := zx_wf g ZX).
  assert (IX1 : forall n, In n (map snd M1) -> isX gf n = isX g v2) by (intros n Hn; unfold isX; rewrite (proj1 (T1 n Hn)); auto).
  assert (IX2 : forall n, In n (map snd M2) -> isX gf n = isX g v1) by (intros n Hn; unfold isX; rewrite (proj1 (T2 n Hn)); auto).
  assert (IXC : forall u, In u core -> isX gf u = isX g u) by (intros u Hu; unfold isX; rewrite (TC u Hu); auto).
  set (f := fun n b => cprod (fun v => ew gf n v b (x v)) core).
  set (N1 := map snd M1) in *. set (N2 := map snd M2) in *.
  assert (L1 : forall a, cprod (fun v => ew g v1 v a (x v)) core = sq2p (- Z.of_nat (length N1)) * Pl f a N1).
  { intros a. apply (leg_factor g gf v1 v2); auto. intros u n H. apply IX1. apply (in_map snd) in H. exact H. }
  assert (L2 : forall a, cprod (fun v => ew g v2 v a (x v)) core = sq2p (- Z.of_nat (length N2)) * Pl f a N2).
  { intros a. apply (leg_factor g gf v2 v1); auto. { rewrite HX, negb_involutive. auto. } intros u n H. apply IX2. apply (in_map snd) in H. exact H. }
  assert (NDN : NoDup (N1 ++ N2)). { rewrite app_assoc in NDA. apply nodup_app_inv in NDA. tauto. }
  assert (DJC : forall v, In v core -> ~ In v (N1 ++ N2)). { intros v Hv X. rewrite app_assoc in NDA. apply nodup_app_inv in NDA. destruct NDA as (_ & _ & NDA). apply (NDA v); auto. }
  set (pa := pbit (phase g v1)). set (pb := pbit (phase g v2)).
  assert (LOC : forall a b, loc g [v1; v2] core (upd (upd x v1 a) v2 b)
    = sgn (pa && a) * sgn (pb && b) * (sq2p (-1) * sgn (a && b)) * ((sq2p (- Z.of_nat (length N1)) * Pl f a N1) * (sq2p (- Z.of_nat (length N2)) * Pl f b N2))).
  { intros a b. unfold loc. cbn [cprod pprod]. set (y := upd (upd x v1 a) v2 b).
    assert (Y1 : y v1 = a) by (unfold y; rewrite upd_other, upd_same; auto). assert (Y2 : y v2 = b) by (unfold y; rewrite upd_same; auto).
    rewrite Y1, Y2.
    assert (Yc : forall u, In u core -> y u = x u) by (intros u Hu; unfold y; rewrite !upd_other; auto; intros ->; auto).
    rewrite (cprod_ext _ (fun v => ew g v1 v a (y v)) (fun v => ew g v1 v a (x v))) by (intros u Hu; rewrite Yc; auto).
    rewrite (cprod_ext _ (fun v => ew g v2 v b (y v)) (fun v => ew g v2 v b (x v))) by (intros u Hu; rewrite Yc; auto).
    rewrite L1, L2. unfold pw. rewrite B1, B2, !pauli_ephase by auto. fold pa pb.
    assert (EW : ew g v1 v2 a b = sq2p (-1) * sgn (a && b)). { unfold ew. rewrite E12, HX. cbn [option_map]. destruct (isX g v2); reflexivity. }
    rewrite EW. ring. }
  cbn [sumv]. rewrite !LOC.
  pose proof (pair_sum pa pb (fun d => Pl f d N1) (fun d => Pl f d N2) (Z.of_nat (length N1)) (Z.of_nat (length N2))) as PS. cbn beta zeta in PS.
  rewrite <- (kmn_sum f pa pb N1 N2 x NDN) in PS.
  etransitivity; [|etransitivity; [exact PS|]]; [ring|]. f_equal.
  apply sumv_ext_on. intros y Hy. unfold loc. rewrite !cprod_app, pprod_app.
  assert (Yc : forall u, In u core -> y u = x u) by (intros u Hu; apply Hy; apply DJC; auto).
  rewrite (pprod_one _ N1) by (intros; unfold ew; rewrite E11 by auto; reflexivity).
  rewrite (pprod_one _ N2) by (intros; unfold ew; rewrite E22 by auto; reflexivity).
  rewrite (cprod_ext _ (fun u => cprod (fun v => ew gf u v (y u) (y v)) core) (fun u => f u (y u)) N1)
    by (intros n Hn; unfold f; apply cprod_ext; intros u Hu; rewrite (Yc u Hu); auto).
  rewrite (cprod_ext _ (fun u => cprod (fun v => ew gf u v (y u) (y v)) core) (fun u => f u (y u)) N2)
    by (intros n Hn; unfold f; apply cprod_ext; intros u Hu; rewrite (Yc u Hu); auto).
  rewrite (cprod_ext _ (fun u => cprod (fun v => ew gf u v (y u) (y v)) N2) (fun n => cprod (fun m => sq2p (-1) * sgn (y n && y m)) N2) N1).
  2:{ intros n Hn. apply cprod_ext. intros m Hm. unfold ew. rewrite (E1x2 n m Hn Hm), (IX1 n Hn), (IX2 m Hm), HX. destruct (isX g v2); reflexivity. }
  rewrite (cprod_ext _ (fun v => pw gf v (y v)) (fun n => sgn (pb && y n)) N1).
  2:{ intros n Hn. destruct (T1 n Hn) as [Tn Pn]. unfold pw, isB. rewrite Tn, Pn. fold (isB g v2). rewrite B2. apply pauli_ephase; auto. }
  rewrite (cprod_ext _ (fun v => pw gf v (y v)) (fun n => sgn (pa && y n)) N2).
  2:{ intros n Hn. destruct (T2 n Hn) as [Tn Pn]. unfold pw, isB. rewrite Tn, Pn. fold (isB g v1). rewrite B1. apply pauli_ephase; auto. }
  rewrite !(cprod_mult _ (fun n => sgn _)). ring.
Qed.

(** ** The theorem *)
(** two spiders of different colour with Pauli phases on a plain wire *)
Definition composable (g : graph) (v1 v2 : nat) : bool :=
  (((vtype_eqb (vty g v1) XSP && vtype_eqb (vty g v2) ZSP) || (vtype_eqb (vty g v1) ZSP && vtype_eqb (vty g v2) XSP))
      && is_pauli (phase g v1) && is_pauli (phase g v2)
      && match edge_type g v1 v2 with Some SIMPLE => true | _ => false end)%bool.
Definition same_bnd (g g' : graph) : Prop :=
  forall u, (In u (vertices g') /\ isB g' u = true) <-> (In u (vertices g) /\ isB g u = true).

Lemma vtype_eqb_true : forall a b, vtype_eqb a b = true -> a = b.
Proof. intros [] []; cbn; auto; discriminate. Qed.

Lemma removed_keep : forall vs g g', removed vs g g' -> vertices g' = keep vs g.
Proof. intros vs g g' R. apply (rm_vs _ _ _ R). Qed.

Theorem strong_comp_ok : forall v1 v2 g, zxok g -> bdeg g -> In v1 (vertices g) -> In v2 (vertices g) ->
  exists g', strong_comp v1 v2 g = Ok (composable g v1 v2, g') /\ zxok g' /\ bdeg g' /\ same_map g g' /\ same_bnd g g' /\
    if composable g v1 v2
    then exists N, vertices g' = keep [v1; v2] g ++ N /\ (length N + 2 = length (neighbors g v1) + length (neighbors g v2))%nat
    else g' = g.
Proof.
  intros v1 v2 g ZX BD I1 I2. assert (W := zx_wf g ZX). assert (NL := zx_noloop g ZX).
  unfold strong_comp, check_strong_comp. rewrite !vtype_r_ok by auto. cbn [bind]. fold (composable g v1 v2).
  destruct (composable g v1 v2) eqn:CO; cbn [negb].
  2:{ exists g. split; auto. split; auto. split; auto. split; [repeat split; auto|]. split; [intros u; tauto|auto]. }
  unfold composable in CO. rewrite !andb_true_iff in CO. destruct CO as [[[TT PA1] PA2] EE].
  destruct (edge_type g v1 v2) as [[]|] eqn:E12; try discriminate. clear EE.
  assert (D12 : v1 <> v2) by (intros ->; rewrite NL in E12; discriminate).
  assert (HX : isX g v1 = negb (isX g v2) /\ isB g v1 = false /\ isB g v2 = false /\ vty g v1 <> BOUNDARY /\ vty g v2 <> BOUNDARY).
  { apply orb_true_iff in TT. rewrite !andb_true_iff in TT. unfold isX, isB.
    destruct TT as [[A B]|[A B]]; apply vtype_eqb_true in A; apply vtype_eqb_true in B; rewrite A, B; repeat split; auto; discriminate. }
  destruct HX as (HX & B1 & B2 & TB1 & TB2). clear TT.
  rewrite neighbors_r_ok by auto. cbn [bind].
  destruct (comp_ok v1 v2 g ZX I1 I2 D12) as (g1 & g2 & h & M1 & M2 & F1 & I21 & F2 & F3 & CP & SC).
  rewrite F1. cbn [bind]. rewrite neighbors_r_ok by auto. cbn [bind]. rewrite F2. cbn [bind]. rewrite F3. cbn [bind].
  set (N1 := map snd M1) in *. set (N2 := map snd M2) in *.
  set (kl := ((Z.of_nat (length N1) - 1) * (Z.of_nat (length N2) - 1))%Z).
  set (h1 := on_scalar (s_add_power kl) h).
  assert (P1 : phase h1 v1 = phase g v1) by (apply (c_ph _ _ _ _ _ _ CP); auto).
  assert (P2 : phase h1 v2 = phase g v2) by (apply (c_ph _ _ _ _ _ _ CP); auto).
  set (h2 := if (qeqb (phase h1 v1) 1%Qc && qeqb (phase h1 v2) 1%Qc)%bool then on_scalar (s_add_phase 1%Qc) h1 else h1).
  assert (H2 : exists f, h2 = on_scalar f h /\ to_number (f (gscalar h)) = sgn (pbit (phase g v1) && pbit (phase g v2)) * sq2p kl * to_number (gscalar h)).
  { unfold h2. rewrite P1, P2. unfold h1. assert (Q : forall p, is_pauli p = true -> qeqb p 1%Qc = pbit p).
    { intros p Hp. unfold is_pauli in Hp. unfold pbit. destruct (qeqb p 0%Qc) eqn:Z0; cbn in Hp |- *; auto.
      apply qeqb_eq in Z0. subst p. reflexivity. }
    rewrite !Q by auto. destruct (pbit (phase g v1) && pbit (phase g v2))%bool.
    - exists (fun s => s_add_phase 1%Qc (s_add_power kl s)). split; [reflexivity|]. rewrite add_phase_number, add_power_number, cexp_1. unfold sgn. ring.
    - exists (s_add_power kl). split; [reflexivity|]. rewrite add_power_number. unfold sgn. ring. }
  destruct H2 as (f & H2 & SF). clearbody h2. subst h2.
  assert (NDA := wf_nd h (c_wf _ _ _ _ _ _ CP)). rewrite (c_vs _ _ _ _ _ _ CP) in NDA.
  assert (NDA' := NDA). apply nodup_app_inv in NDA'. destruct NDA' as (NDV & NDN & DJV).
  assert (DJ12 : forall n, In n N1 -> ~ In n N2) by (apply nodup_app_inv in NDN; tauto).
  assert (VH : forall u, In u (vertices h) <-> In u (vertices g) \/ In u N1 \/ In u N2).
  { intros u. rewrite (c_vs _ _ _ _ _ _ CP), !in_app_iff. tauto. }
  assert (S1 : forall n, In n N1 -> exists u, In (u, n) M1 /\ In u (map fst M1)).
  { intros n Hn. apply in_map_iff in Hn. destruct Hn as [[u n'] [<- Hn]]. exists u. split; auto. apply (in_map fst) in Hn. exact Hn. }
  assert (S2 : forall n, In n N2 -> exists u, In (u, n) M2 /\ In u (map fst M2)).
  { intros n Hn. apply in_map_iff in Hn. destruct Hn as [[u n'] [<- Hn]]. exists u. split; auto. apply (in_map fst) in Hn. exact Hn. }
  assert (K1 : forall u, In u (map fst M1) <-> In u (keep [v1; v2] g) /\ edge_type g v1 u <> None).
  { intros u. rewrite (c_u1 _ _ _ _ _ _ CP), in_keep. split.
    - intros [A B]. split; auto. split; [apply (neighbors_in g v1 u W); apply neighbors_spec; auto|]. intros [<-|[<-|[]]]; [apply A; apply NL|auto].
    - intros [[_ A] B]. split; auto. intros ->. apply A. right; left; auto. }
  assert (K2 : forall u, In u (map fst M2) <-> In u (keep [v1; v2] g) /\ edge_type g v2 u <> None).
  { intros u. rewrite (c_u2 _ _ _ _ _ _ CP), in_keep. split.
    - intros [A B]. split; auto. split; [apply (neighbors_in g v2 u W); apply neighbors_spec; auto|]. intros [<-|[<-|[]]]; [auto|apply A; apply NL].
    - intros [[_ A] B]. split; auto. intros ->. apply A. left; auto. }
  assert (MV1 : forall u, In u (vertices g) -> mem u N1 = false) by (intros u Hu; apply mem_false; intros X; apply (DJV u); auto; apply in_or_app; auto).
  assert (MV2 : forall u, In u (vertices g) -> mem u N2 = false) by (intros u Hu; apply mem_false; intros X; apply (DJV u); auto; apply in_or_app; auto).
  assert (NV1 : forall u n, In (u, n) M1 -> In u (vertices g) /\ ~ In n (vertices g)).
  { intros u n H. split; [apply (in_map fst) in H; apply K1 in H; destruct H as [H _]; apply in_keep in H; tauto|].
    intros X. apply (DJV n X). apply in_or_app. left. apply (in_map snd) in H. exact H. }
  assert (NV2 : forall u n, In (u, n) M2 -> In u (vertices g) /\ ~ In n (vertices g)).
  { intros u n H. split; [apply (in_map fst) in H; apply K2 in H; destruct H as [H _]; apply in_keep in H; tauto|].
    intros X. apply (DJV n X). apply in_or_app. right. apply (in_map snd) in H. exact H. }
  set (h2 := on_scalar f h) in *.
  assert (ZH : zxok h2).
  { constructor.
    - apply on_scalar_wfg. apply CP.
    - intros u. change (edge_type h u u = None). destruct (in_dec Nat.eq_dec u (vertices h)) as [Hu|Hu]; [|apply not_vertex_none; auto; apply CP].
      apply VH in Hu. destruct Hu as [Hu|[Hu|Hu]].
      + rewrite (c_et _ _ _ _ _ _ CP); auto.
      + destruct (S1 u Hu) as (w & Hw & _). rewrite (c_e1 _ _ _ _ _ _ CP w u u Hw). destruct (NV1 w u Hw) as [A B].
        rewrite (proj2 (Nat.eqb_neq u w)) by (intros ->; auto). fold N2. rewrite (proj2 (mem_false u N2)); auto.
      + destruct (S2 u Hu) as (w & Hw & _). rewrite (c_e2 _ _ _ _ _ _ CP w u u Hw). destruct (NV2 w u Hw) as [A B].
        rewrite (proj2 (Nat.eqb_neq u w)) by (intros ->; auto). fold N1. rewrite (proj2 (mem_false u N1)); auto. intros X. apply (DJ12 u); auto.
    - intros u Hu. change (vty h u <> HBOX). apply VH in Hu. destruct Hu as [Hu|[Hu|Hu]].
      + rewrite (c_ty _ _ _ _ _ _ CP) by auto. apply (zx_zx g ZX); auto.
      + rewrite (c_t1 _ _ _ _ _ _ CP) by auto. apply (zx_zx g ZX); auto.
      + rewrite (c_t2 _ _ _ _ _ _ CP) by auto. apply (zx_zx g ZX); auto.
    - intros u Hu. change (in02 (phase h u)). apply VH in Hu. destruct Hu as [Hu|[Hu|Hu]].
      + rewrite (c_ph _ _ _ _ _ _ CP) by auto. apply (zx_ph g ZX); auto.
      + rewrite (c_p1 _ _ _ _ _ _ CP) by auto. apply (zx_ph g ZX); auto.
      + rewrite (c_p2 _ _ _ _ _ _ CP) by auto. apply (zx_ph g ZX); auto.
    - intros v Hv. change (In v (ginputs h) \/ In v (goutputs h)) in Hv. rewrite (c_in _ _ _ _ _ _ CP), (c_out _ _ _ _ _ _ CP) in Hv.
      destruct (zx_io g ZX v Hv) as [A B]. split; [apply VH; auto|]. change (isB h v = true). unfold isB in *. rewrite (c_ty _ _ _ _ _ _ CP); auto. }
  destruct (remove_vertices_ok [v1] h2) as [h3 R3]. { apply ZH. } { apply ZH. } { constructor; [intros []|constructor]. }
  { intros v [<-|[]]. apply VH; auto. }
  rewrite R3. cbn [bind].
  assert (RM3 := remove_vertices_spec _ _ _ (zx_wf _ ZH) R3).
  assert (B1h : isB h2 v1 = false) by (unfold isB; change (vty h2 v1) with (vty h v1); rewrite (c_ty _ _ _ _ _ _ CP) by auto; apply B1).
  assert (B2h : isB h2 v2 = false) by (unfold isB; change (vty h2 v2) with (vty h v2); rewrite (c_ty _ _ _ _ _ _ CP) by auto; apply B2).
  destruct (removed_zxok [v1] h2 h3 ZH RM3) as (ZH3 & IN3 & OUT3). { intros v [<-|[]]; auto. }
  assert (I2h3 : In v2 (vertices h3)).
  { rewrite (removed_keep _ _ _ RM3). apply in_keep. split; [apply VH; auto|]. intros [X|[]]; auto. }
  destruct (remove_vertices_ok [v2] h3) as [h4 R4]. { apply ZH3. } { apply ZH3. } { constructor; [intros []|constructor]. }
  { intros v [<-|[]]. auto. }
  rewrite R4. cbn [bind].
  assert (RM4 := remove_vertices_spec _ _ _ (zx_wf _ ZH3) R4).
  destruct (removed_zxok [v2] h3 h4 ZH3 RM4) as (ZH4 & IN4 & OUT4).
  { intros v [<-|[]]. unfold isB. rewrite (rm_ty _ _ _ RM3); [exact B2h|]. intros [X|[]]; auto. }
  assert (VS : vertices h4 = keep [v1; v2] g ++ N1 ++ N2).
  { rewrite (rm_vs _ _ _ RM4), (rm_vs _ _ _ RM3). change (vertices h2) with (vertices h). rewrite (c_vs _ _ _ _ _ _ CP).
    assert (FF : forall l, filter (fun u => negb (mem u [v2])) (filter (fun u => negb (mem u [v1])) l) = filter (fun u => negb (mem u [v1; v2])) l).
    { induction l as [|a l IH]; auto. cbn [filter mem existsb]. cbn. rewrite ?orb_false_r.
      destruct (Nat.eqb a v1) eqn:Z1; cbn; [exact IH|]. rewrite ?orb_false_r. destruct (Nat.eqb a v2) eqn:Z2; cbn; [exact IH|]. f_equal. exact IH. }
    rewrite FF, filter_app. f_equal. apply filter_true. intros a Ha. apply negb_true_iff, mem_false. intros [<-|[<-|[]]]; [apply (DJV v1)|apply (DJV v2)]; auto. }
  assert (NR : forall u, In u (vertices h4) -> ~ In u [v1] /\ ~ In u [v2]).
  { intros u Hu. rewrite (rm_vs _ _ _ RM4), filter_In, negb_true_iff, mem_false in Hu. destruct Hu as [Hu A].
    rewrite (rm_vs _ _ _ RM3), filter_In, negb_true_iff, mem_false in Hu. tauto. }
  assert (TY4 : forall u, In u (vertices h4) -> vty h4 u = vty h u).
  { intros u Hu. destruct (NR u Hu). rewrite (rm_ty _ _ _ RM4), (rm_ty _ _ _ RM3); auto. }
  assert (PH4 : forall u, In u (vertices h4) -> phase h4 u = phase h u).
  { intros u Hu. destruct (NR u Hu). rewrite (rm_phase _ _ _ RM4), (rm_phase _ _ _ RM3); auto. }
  assert (E4 : forall u w, In u (vertices h4) -> In w (vertices h4) -> edge_type h4 u w = edge_type h u w).
  { intros u w Hu Hw. destruct (NR u Hu), (NR w Hw). rewrite (rm_edge _ _ _ RM4), (rm_edge _ _ _ RM3).
    rewrite !(proj2 (mem_false _ _)) by auto. reflexivity. }
  assert (IN : forall u, In u (vertices h4) <-> In u (keep [v1; v2] g) \/ In u N1 \/ In u N2) by (intros u; rewrite VS, !in_app_iff; tauto).
  assert (KV : forall u, In u (keep [v1; v2] g) -> In u (vertices g)) by (intros u Hu; apply in_keep in Hu; tauto).
  assert (SEM : forall b, sem h4 b = sem g b).
  { apply (sem_regroup g h4 [v1; v2] (N1 ++ N2) (keep [v1; v2] g)); auto.
    - apply ZH4.
    - apply NoDup_Permutation; auto.
      + cbn [app]. constructor; [|constructor].
        * intros [X|X]; [auto|]. apply in_keep in X. destruct X as [_ X]. apply X. left; auto.
        * intros X. apply in_keep in X. destruct X as [_ X]. apply X. right; left; auto.
        * apply keep_nd; auto.
      + intros u. cbn [app In]. rewrite in_keep. cbn [In]. split.
        * intros Hu. destruct (Nat.eq_dec v1 u); auto. destruct (Nat.eq_dec v2 u); auto. right; right. split; auto. tauto.
        * intros [<-|[<-|[Hu _]]]; auto.
    - rewrite VS. apply Permutation_app_comm.
    - intros v [<-|[<-|[]]]; auto.
    - intros v Hv. apply in_app_or in Hv. unfold isB. rewrite TY4 by (apply IN; tauto).
      destruct Hv as [Hv|Hv]; [rewrite (c_t1 _ _ _ _ _ _ CP) by auto; exact B2|rewrite (c_t2 _ _ _ _ _ _ CP) by auto; exact B1].
    - intros v Hv. unfold isB. rewrite TY4 by (apply IN; auto). rewrite (c_ty _ _ _ _ _ _ CP); auto.
    - intros x.
      assert (NC : forall v, In v [v1; v2] -> ~ In v (keep [v1; v2] g)) by (intros v Hv X; apply in_keep in X; tauto).
      rewrite (gen_sum g [v1; v2]) by auto. rewrite (gen_sum h4 (N1 ++ N2)).
      2:{ intros v Hv X. apply (DJV v); auto. }
      assert (IC : integL (keep [v1; v2] g) h4 x = integL (keep [v1; v2] g) g x * (sgn (pbit (phase g v1) && pbit (phase g v2)) * sq2p kl)).
      { unfold integL. rewrite (rm_scalar _ _ _ RM4), (rm_scalar _ _ _ RM3). change (gscalar h2) with (f (gscalar h)). rewrite SF, SC.
        rewrite (cprod_ext _ (fun v => pw h4 v (x v)) (fun v => pw g v (x v)) (keep [v1; v2] g)).
        2:{ intros v Hv. unfold pw, isB. rewrite TY4, PH4 by (apply IN; auto). rewrite (c_ty _ _ _ _ _ _ CP), (c_ph _ _ _ _ _ _ CP); auto. }
        rewrite (pprod_ext (keep [v1; v2] g) (fun u v => ew h4 u v (x u) (x v)) (fun u v => ew g u v (x u) (x v))).
        2:{ intros u v Hu Hv. unfold ew, isX. rewrite !TY4, E4 by (apply IN; auto). rewrite !(c_ty _ _ _ _ _ _ CP), (c_et _ _ _ _ _ _ CP); auto. }
        ring. }
      rewrite IC. rewrite (comp_sum g h4 v1 v2 M1 M2 (keep [v1; v2] g) x); auto.
      + fold N1 N2 kl. ring.
      + apply keep_nd; auto.
      + fold N1 N2. rewrite app_assoc. apply nodup_app; auto; [apply keep_nd; auto|]. intros a Ha X. apply (DJV a); auto.
      + apply NC; left; auto.
      + apply NC; right; left; auto.
      + apply CP.
      + apply CP.
      + intros n Hn. rewrite TY4, PH4 by (apply IN; auto). split; [apply (c_t1 _ _ _ _ _ _ CP)|apply (c_p1 _ _ _ _ _ _ CP)]; auto.
      + intros n Hn. rewrite TY4, PH4 by (apply IN; auto). split; [apply (c_t2 _ _ _ _ _ _ CP)|apply (c_p2 _ _ _ _ _ _ CP)]; auto.
      + intros u Hu. rewrite TY4 by (apply IN; auto). apply (c_ty _ _ _ _ _ _ CP); auto.
      + intros u n w Hn Hw. assert (Hn' := in_map snd _ _ Hn). rewrite E4 by (apply IN; auto). rewrite (c_e1 _ _ _ _ _ _ CP u n w Hn). fold N2. rewrite MV2 by auto. reflexivity.
      + intros u n w Hn Hw. assert (Hn' := in_map snd _ _ Hn). rewrite E4 by (apply IN; auto). rewrite (c_e2 _ _ _ _ _ _ CP u n w Hn). fold N1. rewrite MV1 by auto. reflexivity.
      + intros n m Hn Hm. rewrite E4 by (apply IN; auto). destruct (S1 n Hn) as (u & Hu & Hf). rewrite (c_e1 _ _ _ _ _ _ CP u n m Hu).
        rewrite (proj2 (Nat.eqb_neq m u)). { fold N2. rewrite (proj2 (mem_false m N2)); auto. }
        intros ->. destruct (NV1 u n Hu) as [A _]. apply (DJV u A). apply in_or_app; auto.
      + intros n m Hn Hm. rewrite E4 by (apply IN; auto). destruct (S2 n Hn) as (u & Hu & Hf). rewrite (c_e2 _ _ _ _ _ _ CP u n m Hu).
        rewrite (proj2 (Nat.eqb_neq m u)). { fold N1. rewrite (proj2 (mem_false m N1)); auto. intros X. apply (DJ12 m); auto. }
        intros ->. destruct (NV2 u n Hu) as [A _]. apply (DJV u A). apply in_or_app; auto.
      + intros n m Hn Hm. rewrite E4 by (apply IN; auto). destruct (S1 n Hn) as (u & Hu & Hf). rewrite (c_e1 _ _ _ _ _ _ CP u n m Hu).
        rewrite (proj2 (Nat.eqb_neq m u)). { fold N2. rewrite (proj2 (mem_spec m N2)); auto. }
        intros ->. destruct (NV1 u n Hu) as [A _]. apply (DJV u A). apply in_or_app; auto. }
  assert (SB : same_bnd g h4).
  { intros u. rewrite IN. split.
    - intros [H BB]. unfold isB in BB. rewrite TY4 in BB by (apply IN; auto). destruct H as [H|[H|H]].
      + unfold isB. rewrite (c_ty _ _ _ _ _ _ CP) in BB by auto. auto.
      + rewrite (c_t1 _ _ _ _ _ _ CP) in BB by auto. exfalso. clear -BB B2. unfold isB in B2. congruence.
      + rewrite (c_t2 _ _ _ _ _ _ CP) in BB by auto. exfalso. clear -BB B1. unfold isB in B1. congruence.
    - intros [H BB]. assert (In u (keep [v1; v2] g)). { apply in_keep. split; auto. intros [<-|[<-|[]]]; congruence. }
      split; auto. unfold isB. rewrite TY4 by (apply IN; auto). rewrite (c_ty _ _ _ _ _ _ CP) by auto. exact BB. }
  exists h4. split; [reflexivity|]. split; [exact ZH4|]. split; [|split; [|split; [exact SB|]]].
  - (* bdeg *)
    intros b Hb TB.
    assert (Hg : In b (vertices g) /\ isB g b = true) by (apply SB; split; auto; unfold isB; rewrite TB; auto).
    destruct Hg as [Hg BBg].
    assert (Hk : In b (keep [v1; v2] g)). { apply in_keep. split; auto. intros [<-|[<-|[]]]; congruence. }
    assert (TBg : vty g b = BOUNDARY) by (rewrite TY4, (c_ty _ _ _ _ _ _ CP) in TB; auto).
    destruct (BD b Hg TBg) as [u0 Hu0].
    assert (EB : forall w, edge_type h4 b w <> None <->
       (In w (keep [v1; v2] g) /\ edge_type g b w <> None) \/ In (b, w) M1 \/ In (b, w) M2).
    { intros w. destruct (in_dec Nat.eq_dec w (vertices h4)) as [Hw|Hw].
      - rewrite E4 by auto. assert (Hw' := Hw). apply IN in Hw'. destruct Hw' as [Hk'|[Hn|Hn]].
        + rewrite (c_et _ _ _ _ _ _ CP) by auto. split; [auto|]. intros [[_ A]|[A|A]]; auto.
          * destruct (NV1 _ _ A) as [_ A']. exfalso. apply A'. auto.
          * destruct (NV2 _ _ A) as [_ A']. exfalso. apply A'. auto.
        + destruct (S1 w Hn) as (u & Hu & Hf). rewrite (wf_sym h (c_wf _ _ _ _ _ _ CP)), (c_e1 _ _ _ _ _ _ CP u w b Hu). fold N2. rewrite MV2 by auto.
          split.
          * intros A. destruct (Nat.eqb b u) eqn:Z; [|congruence]. apply Nat.eqb_eq in Z. subst u. auto.
          * intros [[A _]|[A|A]].
            -- exfalso. destruct (NV1 _ _ Hu) as [_ X]. apply X. auto.
            -- assert (Hb1 := in_map fst _ _ A). cbn [fst] in Hb1. apply K1 in Hb1. destruct Hb1 as [_ Hb1].
               assert (b = u). { assert (NDs : NoDup N1) by (apply nodup_app_inv in NDN; tauto).
                 clear -NDs A Hu. unfold N1 in NDs. induction M1 as [|p M IH]; [contradiction|]. inversion NDs; subst.
                 destruct A as [->|A], Hu as [Hu|Hu].
                 - congruence.
                 - exfalso. apply H1. apply (in_map snd) in Hu. exact Hu.
                 - subst p. exfalso. apply H1. apply (in_map snd) in A. exact A.
                 - auto. }
               subst u. rewrite Nat.eqb_refl. exact Hb1.
            -- exfalso. apply (DJ12 w); auto. apply (in_map snd) in A. exact A.
        + destruct (S2 w Hn) as (u & Hu & Hf). rewrite (wf_sym h (c_wf _ _ _ _ _ _ CP)), (c_e2 _ _ _ _ _ _ CP u w b Hu). fold N1. rewrite MV1 by auto.
          split.
          * intros A. destruct (Nat.eqb b u) eqn:Z; [|congruence]. apply Nat.eqb_eq in Z. subst u. auto.
          * intros [[A _]|[A|A]].
            -- exfalso. destruct (NV2 _ _ Hu) as [_ X]. apply X. auto.
            -- exfalso. apply (DJ12 w); auto. apply (in_map snd) in A. exact A.
            -- assert (Hb1 := in_map fst _ _ A). cbn [fst] in Hb1. apply K2 in Hb1. destruct Hb1 as [_ Hb1].
               assert (b = u). { assert (NDs : NoDup N2) by (apply nodup_app_inv in NDN; tauto).
                 clear -NDs A Hu. unfold N2 in NDs. induction M2 as [|p M IH]; [contradiction|]. inversion NDs; subst.
                 destruct A as [->|A], Hu as [Hu|Hu].
                 - congruence.
                 - exfalso. apply H1. apply (in_map snd) in Hu. exact Hu.
                 - subst p. exfalso. apply H1. apply (in_map snd) in A. exact A.
                 - auto. }
               subst u. rewrite Nat.eqb_refl. exact Hb1.
      - rewrite (wf_sym h4 (zx_wf _ ZH4)), (not_vertex_none h4 w b (zx_wf _ ZH4) Hw). split; [congruence|].
        intros [[A _]|[A|A]]; exfalso; apply Hw; apply IN; auto; apply (in_map snd) in A; auto. }
    assert (MM1 : forall w w', In (b, w) M1 -> In (b, w') M1 -> w = w').
    { intros w w' A A'. pose proof (c_n1 _ _ _ _ _ _ CP) as ND. clear -A A' ND. induction M1 as [|p M IH]; [contradiction|]. inversion ND; subst.
      destruct A as [->|A], A' as [A'|A'].
      - congruence.
      - exfalso. apply H1. apply (in_map fst) in A'. exact A'.
      - subst p. exfalso. apply H1. apply (in_map fst) in A. exact A.
      - auto. }
    assert (MM2 : forall w w', In (b, w) M2 -> In (b, w') M2 -> w = w').
    { intros w w' A A'. pose proof (c_n2 _ _ _ _ _ _ CP) as ND. clear -A A' ND. induction M2 as [|p M IH]; [contradiction|]. inversion ND; subst.
      destruct A as [->|A], A' as [A'|A'].
      - congruence.
      - exfalso. apply H1. apply (in_map fst) in A'. exact A'.
      - subst p. exfalso. apply H1. apply (in_map fst) in A. exact A.
      - auto. }
    assert (BM1 : (exists w, In (b, w) M1) <-> u0 = v1).
    { split.
      - intros [w A]. apply (in_map fst) in A. cbn [fst] in A. apply K1 in A. destruct A as [_ A]. symmetry. apply Hu0. rewrite (wf_sym g W). exact A.
      - intros ->. assert (A : In b (map fst M1)). { apply K1. split; auto. rewrite (wf_sym g W). apply Hu0. reflexivity. }
        apply in_map_iff in A. destruct A as [[b' w] [E A]]. cbn in E. subst b'. eauto. }
    assert (BM2 : (exists w, In (b, w) M2) <-> u0 = v2).
    { split.
      - intros [w A]. apply (in_map fst) in A. cbn [fst] in A. apply K2 in A. destruct A as [_ A]. symmetry. apply Hu0. rewrite (wf_sym g W). exact A.
      - intros ->. assert (A : In b (map fst M2)). { apply K2. split; auto. rewrite (wf_sym g W). apply Hu0. reflexivity. }
        apply in_map_iff in A. destruct A as [[b' w] [E A]]. cbn in E. subst b'. eauto. }
    destruct (Nat.eq_dec u0 v1) as [->|Q1]; [|destruct (Nat.eq_dec u0 v2) as [->|Q2]].
    + destruct (proj2 BM1 eq_refl) as [n Hn]. exists n. intros w. rewrite EB. split.
      * intros [[A B]|[A|A]].
        -- exfalso. apply Hu0 in B. subst w. apply in_keep in A. destruct A as [_ A]. apply A. left; auto.
        -- eauto.
        -- exfalso. apply D12. apply BM2. eauto.
      * intros ->. auto.
    + destruct (proj2 BM2 eq_refl) as [n Hn]. exists n. intros w. rewrite EB. split.
      * intros [[A B]|[A|A]].
        -- exfalso. apply Hu0 in B. subst w. apply in_keep in A. destruct A as [_ A]. apply A. right; left; auto.
        -- exfalso. apply D12. symmetry. apply BM1. eauto.
        -- eauto.
      * intros ->. auto.
    + exists u0. intros w. rewrite EB. split.
      * intros [[A B]|[A|A]]; [apply Hu0; auto|exfalso; apply Q1; apply BM1; eauto|exfalso; apply Q2; apply BM2; eauto].
      * intros ->. left. split; [|apply Hu0; auto]. apply in_keep. split.
        -- apply (neighbors_in g b u0 W). apply neighbors_spec. apply Hu0; auto.
        -- intros [X|[X|[]]]; auto.
  - split; [|split; [|exact SEM]].
    + rewrite IN4, IN3. apply (c_in _ _ _ _ _ _ CP).
    + rewrite OUT4, OUT3. apply (c_out _ _ _ _ _ _ CP).
  - exists (N1 ++ N2). split; [exact VS|].
    assert (LEN : forall (a b : nat) M, wfg g -> edge_type g a b <> None -> NoDup (map fst M) ->
       (forall u : nat, In u (map (@fst nat nat) M) <-> edge_type g a u <> None /\ u <> b) -> (length (map (@snd nat nat) M) + 1 = length (neighbors g a))%nat).
    { intros a b M _ HE ND HM. rewrite map_length, <- (map_length fst M).
      transitivity (length (b :: map fst M)); [simpl; lia|]. apply Permutation_length. apply NoDup_Permutation; [|apply neighbors_nd; auto|].
      - constructor; auto. intros X. apply HM in X. tauto.
      - intros u. cbn [In]. rewrite HM, neighbors_spec. split.
        + intros [<-|[A _]]; auto.
        + intros A. destruct (Nat.eq_dec b u); auto. }
    rewrite app_length.
    pose proof (LEN v1 v2 M1 W ltac:(congruence) (c_n1 _ _ _ _ _ _ CP) (c_u1 _ _ _ _ _ _ CP)) as LA.
    pose proof (LEN v2 v1 M2 W ltac:(rewrite (wf_sym g W); congruence) (c_n2 _ _ _ _ _ _ CP) (c_u2 _ _ _ _ _ _ CP)) as LB.
    fold N1 in LA. fold N2 in LB. lia.
Qed.

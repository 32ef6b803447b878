(** Circuit extraction: row operations on the biadjacency matrix between the frontier
    and its neighbours are CNOT gates at the outputs. *)
From Coq Require Import Reals ZArith QArith Qcanon List Bool Arith Lia Permutation FunctionalExtensionality.
From Verif Require Import LinModel LinProofs CNum Base ScalarModel ScalarProofs GraphModel GraphSem SumLemmas GraphProofs GraphOps RulesModel RuleLemmas
  SpiderProofs IsoProofs IdProofs LcompProofs PivotProofs PivotMatch GrowProofs StoreProofs InvProofs BfixProofs TotalProofs GrowTotal
  GateModel CircSpec GateProofs GateMask AmpProofs CircGraphModel CircGraphProofs CircGraphFacts VerifyProofs GraphAlgModel GraphAlgProofs GraphAlgFacts
  ComposeProofs ApplyProofs GflowModel ExtractModel ExtractSem ExtractMap ExtractClean ExtractCz ExtractFront ExtractNbrs.
Import ListNotations.
Open Scope C_scope.
Local Notation parity := LcompProofs.parity.

(** ** Parities *)
Lemma parity_ext : forall f h l, (forall u, In u l -> f u = h u) -> parity f l = parity h l.
Proof. induction l as [|a l IH]; intros H; simpl; auto. fold (parity f l) (parity h l). rewrite IH, H; simpl; auto. intros; apply H; simpl; auto. Qed.
Lemma parity_xor : forall f h l, parity (fun u => xorb (f u) (h u)) l = xorb (parity f l) (parity h l).
Proof.
  induction l as [|a l IH]; simpl; auto. fold (parity f l) (parity h l) (parity (fun u => xorb (f u) (h u)) l). rewrite IH.
  destruct (f a), (h a), (parity f l), (parity h l); auto.
Qed.
Lemma parity_change : forall f h l c d, NoDup l -> In c l -> (forall u, In u l -> u <> c -> h u = f u) -> h c = xorb (f c) d -> parity h l = xorb (parity f l) d.
Proof.
  induction l as [|a l IH]; intros c d N I H E; [destruct I|]. simpl. fold (parity f l) (parity h l). apply NoDup_cons_iff in N. destruct N as [N1 N2].
  destruct I as [->|I].
  - rewrite E, (parity_ext h f l); [destruct (f c), d, (parity f l); auto|]. intros u Hu. apply H; simpl; auto. intros ->. contradiction.
  - rewrite (IH c d); auto. 2:{ intros u Hu. apply H. simpl; auto. }
    rewrite (H a); simpl; auto; [|intros ->; contradiction]. destruct (f a), d, (parity f l); auto.
Qed.
Definition rowp (e : nat -> nat -> bool) (nb : list nat) (u : nat) (x : assignment) : bool := parity (fun v => e u v && x v) nb.
Definition bip (e : nat -> nat -> bool) (fr nb : list nat) (x : assignment) : bool := parity (fun u => x u && rowp e nb u x) fr.
Definition radd (t c : nat) (e : nat -> nat -> bool) : nat -> nat -> bool := fun u v => if Nat.eqb u c then xorb (e c v) (e t v) else e u v.
Lemma rowp_agree : forall e nb u x y, (forall v, In v nb -> x v = y v) -> rowp e nb u x = rowp e nb u y.
Proof. intros. apply parity_ext. intros v Hv. rewrite H; auto. Qed.
Lemma bip_agree : forall e fr nb x y, (forall v, In v fr \/ In v nb -> x v = y v) -> bip e fr nb x = bip e fr nb y.
Proof. intros. apply parity_ext. intros u Hu. rewrite H by auto. f_equal. apply rowp_agree. auto. Qed.
Lemma bip_ext : forall e e' fr nb x, (forall u v, In u fr -> In v nb -> e u v = e' u v) -> bip e fr nb x = bip e' fr nb x.
Proof. intros. apply parity_ext. intros u Hu. f_equal. apply parity_ext. intros v Hv. rewrite H; auto. Qed.
Lemma rowp_radd : forall t c e nb u x, rowp (radd t c e) nb u x = if Nat.eqb u c then xorb (rowp e nb c x) (rowp e nb t x) else rowp e nb u x.
Proof.
  intros. unfold rowp at 1, radd. destruct (Nat.eqb u c); [|auto]. unfold rowp. rewrite <- parity_xor. apply parity_ext.
  intros v _. destruct (e c v), (e t v), (x v); auto.
Qed.
Lemma bip_radd : forall t c e fr nb x, NoDup fr -> In t fr -> In c fr -> t <> c -> ~ In t nb ->
  bip (radd t c e) fr nb x = bip e fr nb (GraphSem.upd x t (xorb (x t) (x c))).
Proof.
  intros t c e fr nb x N It Ic D Nt.
  assert (R : forall u, rowp e nb u (GraphSem.upd x t (xorb (x t) (x c))) = rowp e nb u x).
  { intros u. apply rowp_agree. intros v Hv. apply upd_other. intros ->. contradiction. }
  unfold bip. transitivity (xorb (parity (fun u => x u && rowp e nb u x) fr) (x c && rowp e nb t x)).
  - apply (parity_change _ _ fr c); auto.
    + intros u _ Y. rewrite rowp_radd. destruct (Nat.eqb_spec u c); [contradiction|auto].
    + rewrite rowp_radd, Nat.eqb_refl. destruct (x c), (rowp e nb c x), (rowp e nb t x); auto.
  - symmetry. apply (parity_change _ _ fr t); auto.
    + intros u _ Y. rewrite R, upd_other by auto. auto.
    + rewrite R, upd_same. destruct (x t), (x c), (rowp e nb t x); auto.
Qed.

(** ** Splitting off the edges between the frontier and its neighbours *)
Definition hit (fr nb : list nat) (u v : nat) : bool := (nmem u fr && nmem v nb) || (nmem v fr && nmem u nb).
Definition frest (g : graph) (fr nb : list nat) (x : assignment) (u v : nat) : C := if hit fr nb u v then C1 else ew g u v (x u) (x v).
Definition rest (g : graph) (fr nb : list nat) (x : assignment) : C :=
  to_number (gscalar g) * cprod (fun v => pw g v (x v)) (vertices g) * pprod (frest g fr nb x) (vertices g).
Definition cross (g : graph) (fr nb : list nat) (x : assignment) : C := cprod (fun u => cprod (fun v => ew g u v (x u) (x v)) nb) fr.
Lemma hit_sym : forall fr nb u v, hit fr nb u v = hit fr nb v u.
Proof. intros. unfold hit. apply orb_comm. Qed.
Lemma hit_true : forall fr nb u v, hit fr nb u v = true <-> (In u fr /\ In v nb) \/ (In v fr /\ In u nb).
Proof. intros. unfold hit. rewrite orb_true_iff, !andb_true_iff, !nmem_spec. tauto. Qed.
Lemma frest_sym : forall g fr nb x u v, wfg g -> frest g fr nb x u v = frest g fr nb x v u.
Proof. intros. unfold frest. rewrite hit_sym, ew_sym; auto. Qed.
(** the frontier [fr] with its outputs [ov] and its neighbours [nb] *)
Record front (g : graph) (fr nb : list nat) (ov : nat -> nat) : Prop := mkfront {
  ft_g : gok g; ft_fr : NoDup fr; ft_nb : NoDup nb; ft_disj : forall u, In u fr -> ~ In u nb;
  ft_fv : forall u, In u fr -> In u (vertices g) /\ vty g u = ZSP /\ phase g u = 0%Qc;
  ft_nv : forall u, In u nb -> In u (vertices g) /\ vty g u = ZSP;
  ft_o : forall u, In u fr -> In (ov u) (vertices g) /\ vty g (ov u) = BOUNDARY /\ edge_type g u (ov u) = Some SIMPLE;
  ft_e : forall u w, In u fr -> edge_type g u w <> None -> In w nb \/ w = ov u }.
Lemma front_part : forall g fr nb, wfg g -> NoDup fr -> NoDup nb -> (forall u, In u fr -> ~ In u nb) -> incl fr (vertices g) -> incl nb (vertices g) ->
  exists R, Permutation (vertices g) (fr ++ nb ++ R).
Proof.
  intros g fr nb W N1 N2 D I1 I2.
  assert (X : forall (l V : list nat), NoDup l -> NoDup V -> incl l V -> exists R, Permutation V (l ++ R)).
  { induction l as [|a l IH]; intros V Nl NV I; [exists V; auto|]. apply NoDup_cons_iff in Nl. destruct Nl as [Na Nl].
    destruct (in_perm_front a V) as [V' P]; [apply I; simpl; auto|]. assert (NV' : NoDup (a :: V')) by (eapply Permutation_NoDup; [exact P|auto]).
    apply NoDup_cons_iff in NV'. destruct NV' as [Na' NV']. destruct (IH V' Nl NV') as [R HR].
    - intros u Hu. assert (Z : In u (a :: V')) by (eapply Permutation_in; [exact P|apply I; simpl; auto]). destruct Z as [->|]; [contradiction|auto].
    - exists R. rewrite P. simpl. constructor. auto. }
  destruct (X (fr ++ nb) (vertices g)) as [R HR].
  - apply RuleLemmas.nodup_app; auto.
  - apply W.
  - intros u Hu. apply in_app_or in Hu. destruct Hu; auto.
  - exists R. rewrite HR, app_assoc. auto.
Qed.
Lemma integ_cross : forall g fr nb ov x, front g fr nb ov -> integL (vertices g) g x = cross g fr nb x * rest g fr nb x.
Proof.
  intros g fr nb ov x [G N1 N2 D FV NV _ _]. assert (W := gk_wf g G).
  assert (I1 : incl fr (vertices g)) by (intros u Hu; apply FV; auto). assert (I2 : incl nb (vertices g)) by (intros u Hu; apply NV; auto).
  destruct (front_part g fr nb W N1 N2 D I1 I2) as [R P].
  assert (NR : NoDup (fr ++ nb ++ R)) by (eapply Permutation_NoDup; [exact P|apply W]).
  destruct (nd_app _ _ _ NR) as [_ [NR2 DR1]]. destruct (nd_app _ _ _ NR2) as [_ [_ DR2]].
  unfold integL, rest.
  set (f1 := fun u v => if hit fr nb u v then ew g u v (x u) (x v) else C1).
  rewrite (pprod_ext (vertices g) _ (fun u v => f1 u v * frest g fr nb x u v)).
  2:{ intros u v _ _. unfold f1, frest. destruct (hit fr nb u v); ring. }
  rewrite pprod_mult. assert (S1 : forall u v, f1 u v = f1 v u) by (intros; unfold f1; rewrite hit_sym, ew_sym; auto).
  rewrite (pprod_perm f1 _ _ S1 P), !pprod_app.
  assert (Z : forall u v, ~ ((In u fr /\ In v nb) \/ (In v fr /\ In u nb)) -> f1 u v = C1).
  { intros u v Y. unfold f1. destruct (hit fr nb u v) eqn:B; auto. exfalso. apply Y. apply hit_true. auto. }
  rewrite (pprod_1 f1 fr), (pprod_1 f1 nb), (pprod_1 f1 R).
  2:{ intros u v Hu Hv. apply Z. intros [[A B]|[A B]]; [apply (DR1 u A)|apply (DR1 v A)]; apply in_or_app; auto. }
  2:{ intros u v Hu Hv. apply Z. intros [[A B]|[A B]]; [apply (D u A Hu)|apply (D v A Hv)]. }
  2:{ intros u v Hu Hv. apply Z. intros [[A B]|[A B]]; [apply (D v Hv B)|apply (D u Hu B)]. }
  rewrite (cprod_1 _ (fun u => cprod (f1 u) R) nb).
  2:{ intros u Hu. apply cprod_1. intros v Hv. apply Z. intros [[A B]|[A B]]; [apply (D u A Hu)|]. apply (DR1 v A). apply in_or_app; auto. }
  rewrite (cprod_ext _ (fun u => cprod (f1 u) (nb ++ R)) (fun u => cprod (fun v => ew g u v (x u) (x v)) nb)).
  2:{ intros u Hu. rewrite cprod_app, (cprod_1 _ (f1 u) R).
      - rewrite (cprod_ext _ (f1 u) (fun v => ew g u v (x u) (x v))); [ring|]. intros v Hv. unfold f1. destruct (hit fr nb u v) eqn:B; auto.
        assert (X : hit fr nb u v = true) by (apply hit_true; auto). congruence.
      - intros v Hv. apply Z. intros [[A B]|[A B]]; [apply (DR2 v B Hv)|]. apply (DR1 v A). apply in_or_app; auto. }
  fold (cross g fr nb x). ring.
Qed.
Definition cfac (e : nat -> nat -> bool) (fr nb : list nat) : C := cprod (fun u => cprod (fun v => if e u v then sq2p (-1) else C1) nb) fr.
Lemma cfac_neq0 : forall e fr nb, cfac e fr nb <> C0.
Proof. intros. apply cprod_neq0. intros u _. apply cprod_neq0. intros v _. destruct (e u v); [apply sq2p_neq0|apply C1_neq_C0]. Qed.
Lemma cross_bip : forall g fr nb e x, (forall u, In u fr \/ In u nb -> isX g u = false) ->
  (forall u v, In u fr -> In v nb -> edge_type g u v = if (e u v : bool) then Some HADAMARD else None) ->
  cross g fr nb x = cfac e fr nb * sgn (bip e fr nb x).
Proof.
  intros g fr nb e x X H. unfold cross, cfac, bip. rewrite <- cprod_sgn, <- cprod_mult. apply cprod_ext. intros u Hu.
  unfold rowp. rewrite <- cprod_sgn_and, <- cprod_mult. apply cprod_ext. intros v Hv. rewrite ew_plain, H by auto. destruct (e u v); simpl.
  - auto. - destruct (x u); simpl; unfold sgn; ring.
Qed.

(** ** The rest depends on a frontier spider only through its output *)
Lemma rest_zero : forall g fr nb ov x u, front g fr nb ov -> In u fr -> x u <> x (ov u) -> rest g fr nb x = C0.
Proof.
  intros g fr nb ov x u [G N1 N2 D FV NV O E] Hu H. assert (W := gk_wf g G). destruct (FV u Hu) as [Iu [Tu _]]. destruct (O u Hu) as [Io [To Eo]].
  assert (Duo : u <> ov u) by (intros Y; rewrite <- Y in To; congruence).
  destruct (pprod_change2 (frest g fr nb x) (frest g fr nb x) (vertices g) u (ov u) (wf_nd g W) Iu Io Duo) as [R [E1 _]];
    try (intros; apply frest_sym; auto); auto.
  unfold rest. rewrite E1. unfold frest. destruct (hit fr nb u (ov u)) eqn:B.
  - exfalso. apply hit_true in B. destruct B as [[_ B]|[B _]]; [destruct (NV _ B)|destruct (FV _ B) as [_ [? _]]]; congruence.
  - rewrite ew_plain, Eo by (apply gk_X; auto). cbn [wt]. unfold dlt. destruct (x u), (x (ov u)); simpl; try congruence; ring.
Qed.
Lemma rest_move : forall g fr nb ov x u a, front g fr nb ov -> In u fr ->
  rest g fr nb (GraphSem.upd (GraphSem.upd x (ov u) a) u a) = rest g fr nb (GraphSem.upd (GraphSem.upd x (ov u) false) u false).
Proof.
  intros g fr nb ov x u a [G N1 N2 D FV NV O E] Hu. assert (W := gk_wf g G). destruct (FV u Hu) as [Iu [Tu Pu]]. destruct (O u Hu) as [Io [To Eo]].
  assert (Duo : u <> ov u) by (intros Y; rewrite <- Y in To; congruence).
  destruct (front_part g [u] [ov u] W) as [R P]; try (repeat constructor; simpl; tauto).
  { intros w [<-|[]] [Y|[]]. auto. }
  { intros w [<-|[]]. auto. } { intros w [<-|[]]. auto. }
  cbn [app] in P. assert (NR : NoDup (u :: ov u :: R)) by (eapply Permutation_NoDup; [exact P|apply W]).
  apply NoDup_cons_iff in NR. destruct NR as [NR1 NR2]. apply NoDup_cons_iff in NR2. destruct NR2 as [NR2 _].
  assert (Nu : ~ In u R) by (intros Y; apply NR1; simpl; auto).
  destruct (bdeg_nb g (ov u) W (gk_deg g G) Io To) as [_ HB].
  assert (Eob : forall w, edge_type g (ov u) w <> None -> w = u).
  { intros w Y. apply HB in Y. assert (Z' : edge_type g (ov u) u <> None) by (rewrite wf_sym by auto; congruence). apply HB in Z'. congruence. }
  assert (Q : forall a, rest g fr nb (GraphSem.upd (GraphSem.upd x (ov u) a) u a) =
    to_number (gscalar g) * cprod (fun v => pw g v (x v)) R * pprod (frest g fr nb x) R).
  { intros c. unfold rest. set (y := GraphSem.upd (GraphSem.upd x (ov u) c) u c).
    assert (Yu : y u = c) by (apply upd_same). assert (Yo : y (ov u) = c) by (unfold y; rewrite upd_other by auto; apply upd_same).
    assert (YR : forall w, In w R -> y w = x w) by (intros w Hw; unfold y; rewrite !upd_other; auto; intros ->; contradiction).
    rewrite (cprod_perm _ _ _ _ P), (pprod_perm (frest g fr nb y) _ _ (fun a b => frest_sym g fr nb y a b W) P). cbn [cprod pprod].
    rewrite (cprod_ext _ (fun v => pw g v (y v)) (fun v => pw g v (x v)) R) by (intros w Hw; rewrite YR; auto).
    rewrite (pprod_ext R (frest g fr nb y) (frest g fr nb x)) by (intros v w Hv Hw; unfold frest; rewrite !YR; auto).
    rewrite (cprod_1 _ (frest g fr nb y u) R).
    2:{ intros w Hw. unfold frest. destruct (hit fr nb u w) eqn:B; auto. unfold ew. destruct (edge_type g u w) eqn:Y; auto. exfalso.
        destruct (E u w Hu) as [Z|Z]; [congruence| |rewrite Z in Hw; contradiction]. assert (hit fr nb u w = true) by (apply hit_true; auto). congruence. }
    rewrite (cprod_1 _ (frest g fr nb y (ov u)) R).
    2:{ intros w Hw. unfold frest. destruct (hit fr nb (ov u) w); auto. unfold ew. destruct (edge_type g (ov u) w) eqn:Y; auto. exfalso.
        assert (Z : w = u) by (apply Eob; congruence). rewrite Z in Hw. contradiction. }
    unfold pw at 1 2, isB. rewrite Tu, To, Pu. cbn [vtype_eqb]. unfold frest at 1. destruct (hit fr nb u (ov u)) eqn:B.
    - exfalso. apply hit_true in B. destruct B as [[_ B]|[B _]]; [destruct (NV _ B)|destruct (FV _ B) as [_ [? _]]]; congruence.
    - rewrite ew_plain, Eo, Yu, Yo by (apply gk_X; auto). cbn [wt]. unfold dlt, ephase. destruct c; simpl; rewrite ?cexp_0; ring. }
  rewrite !Q. auto.
Qed.

(** ** One row operation *)
Definition famp (g : graph) (fr nb : list nat) (e : nat -> nat -> bool) (b : assignment) : C :=
  sumv (internal g) (fun x => sgn (bip e fr nb x) * rest g fr nb x) b.
Lemma front_famp : forall g fr nb ov e b, front g fr nb ov -> (forall u v, In u fr -> In v nb -> edge_type g u v = if (e u v : bool) then Some HADAMARD else None) ->
  sem g b = cfac e fr nb * famp g fr nb e b.
Proof.
  intros g fr nb ov e b F H. unfold sem, famp. rewrite <- sumv_scal. apply sumv_ext. intros x. rewrite (integ_cross g fr nb ov x F).
  rewrite (cross_bip g fr nb e x); auto; [ring|]. intros u [Hu|Hu]; apply (gk_X g (ft_g _ _ _ _ F)); [apply (ft_fv _ _ _ _ F u Hu)|apply (ft_nv _ _ _ _ F u Hu)].
Qed.
Lemma famp_radd : forall g fr nb ov e t c b, front g fr nb ov -> In t fr -> In c fr -> t <> c -> ov t <> ov c ->
  famp g fr nb (radd t c e) b = famp g fr nb e (GraphSem.upd b (ov t) (xorb (b (ov t)) (b (ov c)))).
Proof.
  intros g fr nb ov e t c b F It Ic D Do. assert (G := ft_g _ _ _ _ F). assert (W := gk_wf g G).
  destruct (ft_fv _ _ _ _ F t It) as [Vt [Tt _]]. destruct (ft_fv _ _ _ _ F c Ic) as [Vc [Tc _]].
  destruct (ft_o _ _ _ _ F t It) as [Vo [To _]]. destruct (ft_o _ _ _ _ F c Ic) as [Vq [Tq _]].
  assert (Hin : In t (internal g)) by (unfold internal; apply filter_In; split; auto; unfold isB; rewrite Tt; auto).
  assert (NI : NoDup (internal g)) by (apply NoDup_filter, W).
  destruct (in_perm_front t (internal g) Hin) as [I P]. assert (P2 : Permutation (internal g) (I ++ [t])) by (rewrite P; apply Permutation_cons_append).
  assert (NI2 : NoDup (t :: I)) by (eapply Permutation_NoDup; [exact P|auto]). apply NoDup_cons_iff in NI2. destruct NI2 as [NI2 _].
  assert (Sub : forall w, In w I -> In w (internal g)) by (intros w Hw; eapply Permutation_in; [symmetry; exact P|simpl; auto]).
  assert (No : ~ In (ov t) I) by (intros Y; apply Sub in Y; revert Y; apply notin_internal; auto).
  assert (Nq : ~ In (ov c) I) by (intros Y; apply Sub in Y; revert Y; apply notin_internal; auto).
  assert (Dto : t <> ov t) by (intros Y; rewrite <- Y in To; congruence). assert (Dtq : t <> ov c) by (intros Y; rewrite <- Y in Tq; congruence).
  assert (Nto : ov t <> c) by (intros Y; rewrite Y in To; congruence).
  unfold famp. rewrite !(sumv_perm _ _ P2) by auto. rewrite !sumv_app, sumv_upd_in by auto. apply sumv_ext_on. intros x Hx. cbn [sumv].
  assert (Xo : x (ov t) = b (ov t)) by (apply Hx; auto). assert (Xq : x (ov c) = b (ov c)) by (apply Hx; auto).
  set (d := xorb (b (ov t)) (b (ov c))).
  assert (ZL : forall a, a <> b (ov t) -> rest g fr nb (GraphSem.upd x t a) = C0).
  { intros a Ha. apply (rest_zero g fr nb ov _ t F It). rewrite upd_same, upd_other by auto. congruence. }
  assert (ZR : forall a, a <> d -> rest g fr nb (GraphSem.upd (GraphSem.upd x (ov t) d) t a) = C0).
  { intros a Ha. apply (rest_zero g fr nb ov _ t F It). rewrite upd_same, (upd_other _ t), upd_same by auto. auto. }
  transitivity (sgn (bip (radd t c e) fr nb (GraphSem.upd x t (b (ov t)))) * rest g fr nb (GraphSem.upd x t (b (ov t)))).
  { destruct (b (ov t)); [rewrite (ZL false) by auto|rewrite (ZL true) by discriminate]; ring. }
  transitivity (sgn (bip e fr nb (GraphSem.upd (GraphSem.upd x (ov t) d) t d)) * rest g fr nb (GraphSem.upd (GraphSem.upd x (ov t) d) t d)).
  2:{ destruct d; [rewrite (ZR false) by auto|rewrite (ZR true) by discriminate]; ring. }
  rewrite (rest_move g fr nb ov x t d F It). rewrite <- (rest_move g fr nb ov x t (b (ov t)) F It).
  replace (GraphSem.upd x (ov t) (b (ov t))) with x by (rewrite <- Xo; symmetry; apply upd_id).
  destruct (bool_dec (x c) (x (ov c))) as [Y|Y].
  - f_equal. f_equal. rewrite bip_radd by (auto; try apply (ft_fr _ _ _ _ F); intros Z; apply (ft_disj _ _ _ _ F t It Z)).
    rewrite upd_same, (upd_other x t (b (ov t)) c), upd_shadow, Y, Xq by auto. fold d. apply bip_agree. intros v Hv. unfold GraphSem.upd. destruct (Nat.eqb_spec v t); auto.
    destruct (Nat.eqb_spec v (ov t)) as [->|]; auto. exfalso. destruct Hv as [Hv|Hv]; [destruct (ft_fv _ _ _ _ F _ Hv) as [_ [? _]]|destruct (ft_nv _ _ _ _ F _ Hv) as [_ ?]]; congruence.
  - rewrite (rest_zero g fr nb ov (GraphSem.upd x t (b (ov t))) c F Ic); [ring|]. rewrite !upd_other by auto. auto.
Qed.

(** ** Several row operations *)
Lemma index_in : forall l v, In v l -> (index v l < length l)%nat /\ nth (index v l) l 0%nat = v.
Proof.
  induction l as [|a l IH]; intros v H; [destruct H|]. simpl. destruct (Nat.eqb_spec v a) as [->|D]; [split; [lia|auto]|].
  destruct H as [<-|H]; [contradiction|]. destruct (IH v H) as [A B]. split; [lia|auto].
Qed.
Lemma index_lt : forall l v, (index v l < length l)%nat -> nth (index v l) l 0%nat = v.
Proof.
  induction l as [|a l IH]; intros v H; cbn [index length nth] in *; [lia|]. destruct (Nat.eqb_spec v a) as [Y|D]; [auto|]. apply IH. lia.
Qed.
Lemma bits_upd : forall ins outs i y q c, NoDup (ins ++ outs) -> (q < length outs)%nat ->
  GraphSem.upd (bits ins outs i y) (nth q outs 0%nat) c = bits ins outs i (GraphSem.upd y q c).
Proof.
  intros ins outs i y q c N L. apply functional_extensionality. intros v. unfold GraphSem.upd at 1. destruct (Nat.eqb_spec v (nth q outs 0%nat)) as [->|D].
  - rewrite bits_out by auto. symmetry. apply upd_same.
  - unfold bits. destruct (Nat.ltb_spec (index v (ins ++ outs)) (length ins)) as [X|X]; auto. symmetry. apply upd_other.
    intros Y. apply D. rewrite <- (index_lt (ins ++ outs) v) by (rewrite app_length; lia). rewrite app_nth2 by lia. f_equal. auto.
Qed.
Definition ent (m : mat) (fr nb : list nat) (u v : nat) : bool := get m (index u fr) (index v nb).
Definition ovq (g : graph) (qm : dict nat) (u : nat) : nat := match dget u qm with Some q => outv g q | None => 0%nat end.
Lemma famp_ext : forall g fr nb e e' b, (forall u v, In u fr -> In v nb -> e u v = e' u v) -> famp g fr nb e b = famp g fr nb e' b.
Proof. intros. apply sumv_ext. intros x. rewrite (bip_ext e e'); auto. Qed.
Lemma cnot_one_ok : forall g qm fr nb m cn ct m' cn', front g fr nb (ovq g qm) -> frok g qm fr -> rect (length fr) (length nb) m -> fst ct <> snd ct ->
  cnot_one qm fr (m, cn) ct = Ok (m', cn') ->
  exists a, cn' = cn ++ [a] /\ gate_in (nout g) a /\ rect (length fr) (length nb) m' /\
    forall i y, famp g fr nb (ent m fr nb) (bits (ginputs g) (goutputs g) i y) =
      cden [a] (fun y => famp g fr nb (ent m' fr nb) (bits (ginputs g) (goutputs g) i y)) y.
Proof.
  intros g qm fr nb m cn [c t] m' cn' F FO R D H. cbn [fst snd] in D. unfold cnot_one in H. destruct (negb _) eqn:B; [discriminate|].
  apply negb_false_iff, andb_true_iff in B. destruct B as [Bc Bt]. apply Nat.ltb_lt in Bc, Bt. rewrite (proj1 R) in Bc, Bt.
  inv_bind H. apply of_opt_some in E. inv_bind H. apply of_opt_some in E0. inv_bind H. apply of_opt_some in E1. inv_bind H. apply of_opt_some in E2.
  injection H as <- <-. rename a into vc, a0 into vt, a1 into qc, a2 into qt.
  assert (Hc : In vc fr) by (eapply nth_error_In; eauto). assert (Ht : In vt fr) by (eapply nth_error_In; eauto).
  assert (Nf := ft_fr _ _ _ _ F). assert (G := ft_g _ _ _ _ F).
  apply (nth_error_nth _ _ 0%nat) in E, E0.
  assert (Dv : vt <> vc). { intros Y. apply D. apply (proj1 (NoDup_nth fr 0%nat) Nf); auto. congruence. }
  destruct (fk_v _ _ _ FO vc Hc) as [q1 [Q1 [L1 _]]]. assert (q1 = qc) by congruence. subst q1.
  destruct (fk_v _ _ _ FO vt Ht) as [q2 [Q2 [L2 _]]]. assert (q2 = qt) by congruence. subst q2.
  assert (Oc : ovq g qm vc = outv g qc) by (unfold ovq; rewrite E1; auto). assert (Ot : ovq g qm vt = outv g qt) by (unfold ovq; rewrite E2; auto).
  assert (Dq : qc <> qt). { intros ->. apply Dv. eapply (frok_inj g qm fr); eauto. }
  assert (Do : outv g qt <> outv g qc) by (intros Y; apply Dq; symmetry; apply (gk_out_inj g G); auto).
  exists (GCNOT qc qt). split; auto. split; [apply gcnot_in; auto|]. split; [apply row_add_rect; auto|].
  intros i y. change (famp g fr nb (ent m fr nb) (bits (ginputs g) (goutputs g) i y) =
    famp g fr nb (ent (row_add t c m) fr nb) (bits (ginputs g) (goutputs g) i (GraphSem.upd y qt (xorb (y qt) (y qc))))).
  rewrite (famp_ext g fr nb (ent (row_add t c m) fr nb) (radd vt vc (ent m fr nb))).
  2:{ intros u v Hu Hv. unfold ent, radd. rewrite (get_row_add (length fr) (length nb)) by auto.
      rewrite <- E, <- E0, !index_nth by auto. destruct (index_in fr u Hu) as [I1 I2].
      destruct (Nat.eqb_spec (index u fr) c) as [Y|Y], (Nat.eqb_spec u (nth c fr 0%nat)) as [Z|Z]; auto.
      - exfalso. apply Z. rewrite <- Y. auto.
      - exfalso. apply Y. rewrite Z. apply index_nth; auto. }
  rewrite (famp_radd g fr nb (ovq g qm)) by (auto; congruence). rewrite Oc, Ot. unfold outv. f_equal.
  rewrite !bits_out' by auto. rewrite upd_same, (upd_other y qt _ qc) by auto. rewrite bits_upd by (auto; apply G). f_equal.
  rewrite upd_shadow. rewrite xorb_assoc, xorb_nilpotent, xorb_false_r. symmetry. apply upd_id.
Qed.
Lemma cnots_ok : forall g qm fr nb cs m cn m' cn', front g fr nb (ovq g qm) -> frok g qm fr -> rect (length fr) (length nb) m -> (forall c t, In (c, t) cs -> c <> t) ->
  foldM (cnot_one qm fr) cs (m, cn) = Ok (m', cn') ->
  exists new, cn' = cn ++ new /\ Forall (gate_in (nout g)) new /\ rect (length fr) (length nb) m' /\
    forall i y, famp g fr nb (ent m fr nb) (bits (ginputs g) (goutputs g) i y) =
      cden (rev new) (fun y => famp g fr nb (ent m' fr nb) (bits (ginputs g) (goutputs g) i y)) y.
Proof.
  induction cs as [|[c t] cs IH]; intros m cn m' cn' F FO R D H; cbn [foldM] in H.
  - injection H as <- <-. exists []. rewrite app_nil_r. split; auto.
  - inv_bind H. destruct a as [m1 cn1]. destruct (cnot_one_ok g qm fr nb m cn (c, t) m1 cn1 F FO R) as [a [A1 [A2 [A3 A4]]]]; auto.
    { apply D. simpl; auto. }
    destruct (IH m1 cn1 m' cn' F FO A3) as [new [B1 [B2 [B3 B4]]]]; auto. { intros c' t' Y. apply D. simpl; auto. }
    exists (a :: new). split; [rewrite B1, A1, <- app_assoc; auto|]. split; [constructor; auto|]. split; auto.
    intros i y. rewrite A4. cbn [rev]. rewrite cden_app. f_equal. apply functional_extensionality. intros y'. apply B4.
Qed.

(** ** connectivity_from_biadj *)
Lemma conn_one_ok : forall m fr nb g i j g', gok g -> (forall u, In u fr \/ In u nb -> vty g u = ZSP) -> (forall u, In u fr -> ~ In u nb) ->
  conn_one m nb fr g (i, j) = Ok g' ->
  (i < length fr)%nat /\ (j < length nb)%nat /\ gok g' /\ same_frame g g' /\ (forall u, phase g' u = phase g u) /\ gscalar g' = gscalar g /\
  forall u w, edge_type g' u w = if pair_hit (nth i fr 0%nat) (nth j nb 0%nat) u w then (if get m i j then Some HADAMARD else None) else edge_type g u w.
Proof.
  intros m fr nb g i j g' G T D H. assert (W := gk_wf g G). unfold conn_one in H. inv_bind H. apply of_opt_some in E. inv_bind H. apply of_opt_some in E0.
  assert (Hr : In a fr) by (eapply nth_error_In; eauto). assert (Hl : In a0 nb) by (eapply nth_error_In; eauto).
  assert (Li : (i < length fr)%nat) by (apply nth_error_Some; congruence). assert (Lj : (j < length nb)%nat) by (apply nth_error_Some; congruence).
  apply (nth_error_nth _ _ 0%nat) in E, E0. split; auto. split; auto. rewrite E, E0. clear E E0. rename a into r, a0 into l.
  assert (Dr : r <> l) by (intros ->; apply (D l); auto). assert (Tr := T r (or_introl Hr)). assert (Tl := T l (or_intror Hl)).
  assert (KE : forall e, edge_type g r l = e -> e = (if get m i j then Some HADAMARD else None) -> forall u w,
     edge_type g u w = if pair_hit r l u w then (if get m i j then Some HADAMARD else None) else edge_type g u w).
  { intros e E1 E2 u w. destruct (pair_hit r l u w) eqn:P; auto. apply pair_hit_true in P. destruct P as [[-> ->]|[-> ->]]; [congruence|]. rewrite wf_sym by auto. congruence. }
  unfold connected in H. destruct (get m i j) eqn:GM, (edge_type g r l) as [e|] eqn:Erl; try (injection H as <-).
  - split; auto. split; [apply same_frame_refl|]. split; auto. split; auto. apply (KE (Some e)); auto. f_equal. apply (proj2 (gk_gl _ G) r l e); auto.
  - destruct (fresh_edge _ _ _ _ _ W Dr Erl H) as [W' [F [P [S [_ [_ ET]]]]]].
    assert (PH : forall u, phase g' u = phase g u) by (intros; unfold phase; rewrite P; auto).
    assert (HB : forall u x, vty g u = BOUNDARY -> edge_type g' u x = edge_type g u x).
    { intros u x Y. rewrite ET, pair_hit_false; auto; intros Z; injection Z as -> ->; congruence. }
    split; auto. apply (gok_frame g g' G W' F).
    + intros u Hu. rewrite PH. apply (zx_ph _ (zi_zx _ (gk_z _ G))); auto.
    + auto.
    + intros u x Y. rewrite HB by auto. tauto.
    + intros u. rewrite ET, pair_hit_false; [apply (gk_nl g G)| |]; intros Z; injection Z; intros; congruence.
    + intros u x e'. rewrite ET. destruct (pair_hit r l u x); [congruence|]. apply (proj2 (gk_gl _ G)).
  - destruct (remove_zz g g' r l G Dr Tr Tl H) as [G' [S [_ [ET [P _]]]]]. split; auto. split; [apply S|]. split; auto. split; auto.
    destruct (remove_edge_spec _ _ _ _ W Dr H) as [_ [_ [_ [SC _]]]]. auto.
  - split; auto. split; [apply same_frame_refl|]. split; auto. split; auto. apply (KE None); auto.
Qed.
Lemma conn_ok : forall m fr nb ps g g', NoDup fr -> NoDup nb -> gok g -> (forall u, In u fr \/ In u nb -> vty g u = ZSP) -> (forall u, In u fr -> ~ In u nb) ->
  foldM (conn_one m nb fr) ps g = Ok g' ->
  gok g' /\ same_frame g g' /\ (forall u, phase g' u = phase g u) /\ gscalar g' = gscalar g /\
  (forall u w, hit fr nb u w = false -> edge_type g' u w = edge_type g u w) /\
  (forall i j, ~ In (i, j) ps -> (i < length fr)%nat -> (j < length nb)%nat -> edge_type g' (nth i fr 0%nat) (nth j nb 0%nat) = edge_type g (nth i fr 0%nat) (nth j nb 0%nat)) /\
  (forall i j, In (i, j) ps -> edge_type g' (nth i fr 0%nat) (nth j nb 0%nat) = if get m i j then Some HADAMARD else None).
Proof.
  induction ps as [|[i j] ps IH]; intros g g' N1 N2 G T D H; cbn [foldM] in H.
  - injection H as <-. split; auto. split; [apply same_frame_refl|]. split; auto. split; auto. split; auto. split; auto. intros i j [].
  - inv_bind H. destruct (conn_one_ok m fr nb g i j a G T D E) as [Li [Lj [G1 [F1 [P1 [S1 E1]]]]]].
    assert (T1 : forall u, In u fr \/ In u nb -> vty a u = ZSP) by (intros u Hu; rewrite (same_frame_vty g a); auto).
    destruct (IH a g' N1 N2 G1 T1 D H) as [G2 [F2 [P2 [S2 [E2 [E3 E4]]]]]].
    split; auto. split; [eapply same_frame_trans; eauto|]. split; [intros; rewrite P2; auto|]. split; [congruence|].
    assert (Hi : In (nth i fr 0%nat) fr) by (apply nth_In; auto). assert (Hj : In (nth j nb 0%nat) nb) by (apply nth_In; auto).
    assert (Z : forall i' j', (i', j') <> (i, j) -> (i' < length fr)%nat -> (j' < length nb)%nat -> edge_type a (nth i' fr 0%nat) (nth j' nb 0%nat) = edge_type g (nth i' fr 0%nat) (nth j' nb 0%nat)).
    { intros i' j' Y L1 L2. rewrite E1, pair_hit_false; auto.
      - intros X. injection X as X1 X2. apply Y. f_equal; [apply (proj1 (NoDup_nth fr 0%nat) N1)|apply (proj1 (NoDup_nth nb 0%nat) N2)]; auto.
      - intros X. injection X as X1 X2. apply (D (nth i' fr 0%nat)); [apply nth_In; auto|]. rewrite X1. auto. }
    split; [|split].
    + intros u w B. rewrite E2 by auto. rewrite E1. destruct (pair_hit (nth i fr 0%nat) (nth j nb 0%nat) u w) eqn:Y; auto. exfalso.
      apply pair_hit_true in Y. assert (X : hit fr nb u w = true) by (apply hit_true; destruct Y as [[-> ->]|[-> ->]]; auto). congruence.
    + intros i' j' Y L1 L2. rewrite E3; auto; [|intros X; apply Y; simpl; auto]. apply Z; auto. intros X. apply Y. simpl; auto.
    + intros i' j' [Y|Y]; [|auto]. injection Y as <- <-. destruct (in_dec (fun a b : nat * nat => ltac:(decide equality; apply Nat.eq_dec)) (i, j) ps) as [X|X]; [auto|].
      rewrite E3, E1, pair_hit_st by auto. auto.
Qed.

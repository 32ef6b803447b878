(** The end of extract_circuit: a diagram whose outputs are wired to its inputs is
    a permutation followed by Hadamard gates (graph_to_swaps, extract.py 782-807) *)
From Coq Require Import Reals ZArith QArith Qcanon List Bool Arith Lia Permutation FunctionalExtensionality.
From Verif Require Import LinModel LinProofs CNum Base ScalarModel ScalarProofs GraphModel GraphSem SumLemmas GraphProofs GraphOps RulesModel RuleLemmas
  SpiderProofs IsoProofs IdProofs LcompProofs PivotProofs PivotMatch GrowProofs StoreProofs SimpModel ColorProofs SimpProofs PairProofs RuleShape InvProofs TermProofs BfixProofs RoundProofs TotalProofs GrowTotal
  ZXFacts GateModel CircSpec GateProofs GateMask AmpProofs CircGraphModel CircGraphProofs CircGraphFacts VerifyProofs GraphAlgModel GraphAlgProofs GraphAlgFacts
  ComposeProofs ApplyProofs PermModel PermProofs GflowModel GflowProofs ExtractModel ExtractSem ExtractMap ExtractClean ExtractCz ExtractFront ExtractNbrs ExtractCnot ExtractTake ExtractPivot ExtractRound.
Import ListNotations.
Open Scope C_scope.

(** ** Sums and products *)
Lemma sumv_dep : forall l F L x y, (forall x' y' : assignment, (forall v, In v l \/ In v L -> x' v = y' v) -> F x' = F y') ->
  (forall v, In v L -> x v = y v) -> sumv l F x = sumv l F y.
Proof.
  induction l as [|a l IH]; intros F L x y HF H; cbn [sumv].
  - apply HF. intros v [[]|Hv]. auto.
  - rewrite (IH F (a :: L) (GraphSem.upd x a false) (GraphSem.upd y a false)), (IH F (a :: L) (GraphSem.upd x a true) (GraphSem.upd y a true)); auto;
    try (intros x' y' K; apply HF; intros v Hv; apply K; simpl in *; tauto);
    intros v [<-|Hv]; unfold GraphSem.upd; [rewrite !Nat.eqb_refl; auto|destruct (Nat.eqb v a); auto|rewrite !Nat.eqb_refl; auto|destruct (Nat.eqb v a); auto].
Qed.
Lemma cprod_pick : forall (F : nat -> C) l t, NoDup l -> In t l -> cprod F l = F t * cprod F (without [t] l).
Proof.
  intros F l t N I. rewrite (cprod_perm _ F l (without [t] l ++ [t])).
  - rewrite cprod_app. simpl. ring.
  - apply without_perm; auto; [repeat constructor; simpl; tauto|intros x [<-|[]]; auto].
Qed.
Lemma part_drop : forall g L D x, wfg g -> NoDup L -> NoDup D -> incl D L -> (forall v, In v D -> vty g v = BOUNDARY /\ forall u, In u L -> edge_type g v u = None) ->
  part g L x = part g (without D L) x.
Proof.
  intros g L D x W NL ND I H. rewrite (part_perm g _ _ x W (without_perm D L NL ND I)). rewrite part_app.
  - assert (Y : part g D x = C1).
    { unfold part. rewrite (cprod_1 _ _ D) by (intros v Hv; unfold pw, isB; rewrite (proj1 (H v Hv)); auto).
      rewrite pprod_1; [ring|]. intros u v Hu Hv. unfold ew. rewrite (proj2 (H u Hu)); auto. }
    rewrite Y. ring.
  - intros u v Hu Hv. rewrite (wf_sym g W). apply H; auto. apply in_without in Hu. tauto.
Qed.

(** ** The diagram *)
Lemma wired_val : forall g e sg, zinv g -> io_ok g -> nin g = nout g ->
  (forall q, (q < nout g)%nat -> (sg q < nin g)%nat /\ edge_type g (outv g q) (nth (sg q) (ginputs g) 0%nat) = Some (e q)) ->
  exists K, forall i y, val g i y = K * cprod (fun q => wt (Some (e q)) (i (sg q)) (y q)) (seq 0 (nout g)).
Proof.
  intros g e sg Z IO EQ H. assert (W := zx_wf _ (zi_zx _ Z)). assert (BD := zi_deg _ Z). assert (NL := zx_noloop _ (zi_zx _ Z)).
  destruct (nd_app _ _ _ IO) as [NI [NO DIS]].
  assert (BO : forall o, In o (goutputs g) -> In o (vertices g) /\ vty g o = BOUNDARY).
  { intros o Ho. destruct (zx_io _ (zi_zx _ Z) o) as [A B]; [right; auto|]. split; auto. apply vtype_eqb_eq; auto. }
  assert (BI : forall o, In o (ginputs g) -> In o (vertices g) /\ vty g o = BOUNDARY).
  { intros o Ho. destruct (zx_io _ (zi_zx _ Z) o) as [A B]; [left; auto|]. split; auto. apply vtype_eqb_eq; auto. }
  assert (OQ : forall q, (q < nout g)%nat -> In (outv g q) (goutputs g)) by (intros q Q; apply nth_In; auto).
  assert (IQ : forall q, (q < nout g)%nat -> In (nth (sg q) (ginputs g) 0%nat) (ginputs g)) by (intros q Q; apply nth_In; apply H; auto).
  assert (NBo : forall q, (q < nout g)%nat -> nb g (outv g q) = nth (sg q) (ginputs g) 0%nat).
  { intros q Q. destruct (BO _ (OQ q Q)) as [A B]. symmetry. apply (bdeg_nb g (outv g q) W BD A B). rewrite (proj2 (H q Q)). discriminate. }
  assert (NBi : forall q, (q < nout g)%nat -> nb g (nth (sg q) (ginputs g) 0%nat) = outv g q).
  { intros q Q. destruct (BI _ (IQ q Q)) as [A B]. symmetry. apply (bdeg_nb g _ W BD A B). rewrite (wf_sym g W), (proj2 (H q Q)). discriminate. }
  assert (INJ : forall q q', (q < nout g)%nat -> (q' < nout g)%nat -> sg q = sg q' -> q = q').
  { intros q q' Q Q' E. apply (proj1 (NoDup_nth (goutputs g) 0%nat) NO); auto. change (outv g q = outv g q'). rewrite <- NBi, <- (NBi q'), E by auto. auto. }
  assert (SUR : forall v, In v (ginputs g) -> In (nb g v) (goutputs g)).
  { intros v Hv. destruct (In_nth _ _ 0%nat Hv) as [j [J <-]].
    assert (X : In j (map sg (seq 0 (nout g)))).
    { assert (P : Permutation (map sg (seq 0 (nout g))) (seq 0 (nout g))).
      { apply NoDup_Permutation_bis.
        - assert (Y : forall l, NoDup l -> (forall q, In q l -> (q < nout g)%nat) -> NoDup (map sg l)).
          { induction l as [|a l IHl]; intros Nl Hl; simpl; [constructor|]. apply NoDup_cons_iff in Nl. destruct Nl as [N1 N2]. constructor; [|apply IHl; auto; intros; apply Hl; simpl; auto].
            intros Y. apply in_map_iff in Y. destruct Y as [b [Y1 Y2]]. apply INJ in Y1; [subst; auto| |]; apply Hl; simpl; auto. }
          apply Y; [apply seq_NoDup|intros q Hq; apply in_seq in Hq; lia].
        - rewrite map_length. auto.
        - intros q Hq. apply in_map_iff in Hq. destruct Hq as [p [<- Hp]]. apply in_seq in Hp. apply in_seq. destruct (H p) as [Y _]; [lia|]. rewrite EQ in Y. lia. }
      eapply Permutation_in; [symmetry; exact P|]. apply in_seq. unfold nin in *. lia. }
    apply in_map_iff in X. destruct X as [q [<- Hq]]. apply in_seq in Hq. rewrite NBi by lia. apply OQ. lia. }
  set (V1 := without (goutputs g) (vertices g)). set (V2 := without (ginputs g) V1).
  assert (NV1 : NoDup V1) by (apply NoDup_filter; apply W).
  set (K := sumv (internal g) (fun x => to_number (gscalar g) * part g V2 x) zerob).
  exists K. intros i y. unfold val. set (b := bits (ginputs g) (goutputs g) i y).
  set (P := cprod (fun q => wt (Some (e q)) (i (sg q)) (y q)) (seq 0 (nout g))).
  assert (II : forall x, (forall v, ~ In v (internal g) -> x v = b v) -> integL (vertices g) g x = P * (to_number (gscalar g) * part g V2 x)).
  { intros x Hx. rewrite integL_part, (part_cut g (goutputs g) x W BD NO BO).
    2:{ intros u v Hu Hv. destruct (edge_type g u v) eqn:E; auto. exfalso. destruct (In_nth _ _ 0%nat Hu) as [q [Q Eq]].
        destruct (BO u Hu) as [A B]. assert (v = nb g u) by (apply (bdeg_nb g u W BD A B); congruence). subst u. change (nth q (goutputs g) 0%nat) with (outv g q) in *.
        rewrite NBo in H0 by auto. apply (DIS v); auto. subst v. apply IQ. auto. }
    fold V1. assert (PD : part g V1 x = part g V2 x).
    { apply part_drop; auto.
      - intros v Hv. apply in_without. split; [apply BI; auto|apply DIS; auto].
      - intros v Hv. split; [apply BI; auto|]. intros u Hu. destruct (edge_type g v u) eqn:E; auto. exfalso. apply in_without in Hu. apply (proj2 Hu).
        destruct (BI v Hv) as [A B]. assert (u = nb g v) by (apply (bdeg_nb g v W BD A B); congruence). subst u. apply SUR. auto. }
    rewrite PD. assert (PE : cprod (fun o => ew g (nb g o) o (x (nb g o)) (x o)) (goutputs g) = P).
    { assert (GE : goutputs g = map (outv g) (seq 0 (nout g))).
      { apply nth_ext with (d := 0%nat) (d' := outv g 0); [rewrite map_length, seq_length; auto|]. intros q Q. rewrite map_nth, seq_nth by auto. reflexivity. }
      rewrite GE, cprod_map'. unfold P. apply cprod_ext. intros q Hq. apply in_seq in Hq. assert (Q : (q < nout g)%nat) by lia.
      rewrite NBo by auto. destruct (BO _ (OQ q Q)) as [A1 A2]. destruct (BI _ (IQ q Q)) as [B1 B2].
      rewrite ew_plain by (unfold isX; rewrite ?A2, ?B2; auto). rewrite (wf_sym g W), (proj2 (H q Q)).
      rewrite !Hx by (apply notin_internal; auto). unfold b, outv. rewrite bits_in, bits_out; auto. apply H; auto. }
    rewrite PE. ring. }
  unfold sem. rewrite (sumv_ext_on _ _ (fun x => P * (to_number (gscalar g) * part g V2 x))) by (intros x Hx; apply II; auto).
  rewrite sumv_scal. fold P. rewrite Cmult_comm. f_equal.
  apply sumv_dep with (L := []); [|intros v []].
  intros x' y' K'. f_equal. apply part_agree. intros v Hv. apply K'. left. unfold V2, V1 in Hv. apply in_without in Hv. destruct Hv as [Hv Ni]. apply in_without in Hv. destruct Hv as [Hv No].
  unfold internal. apply filter_In. split; auto. unfold isB. destruct (vty g v) eqn:T; auto. exfalso. destruct (zi_io _ Z v Hv T); auto.
Qed.

(** ** The circuit *)
Definition prodst (n : nat) (f : nat -> bool -> C) : state := fun x => cprod (fun q => f q (x q)) (seq 0 n).
Definition hadf (f : bool -> C) : bool -> C := fun c => mH c false * f false + mH c true * f true.
Lemma had_prodst : forall n f t, (t < n)%nat -> op1 mH t (prodst n f) = prodst n (fun q => if Nat.eqb q t then hadf (f q) else f q).
Proof.
  intros n f t T. apply functional_extensionality. intros x. unfold op1, prodst.
  assert (I : In t (seq 0 n)) by (apply in_seq; lia). rewrite !(cprod_pick _ (seq 0 n) t (seq_NoDup n 0) I).
  rewrite !upd_same, Nat.eqb_refl.
  assert (X : forall c, cprod (fun q => f q (GraphSem.upd x t c q)) (without [t] (seq 0 n)) = cprod (fun q => f q (x q)) (without [t] (seq 0 n))).
  { intros c. apply cprod_ext. intros q Hq. rewrite upd_other; auto. intros ->. apply in_without in Hq. apply (proj2 Hq). simpl; auto. }
  rewrite !X. rewrite (cprod_ext _ (fun q => (if Nat.eqb q t then hadf (f q) else f q) (x q)) (fun q => f q (x q))).
  - unfold hadf. ring.
  - intros q Hq. destruct (Nat.eqb_spec q t) as [->|]; auto. apply in_without in Hq. exfalso. apply (proj2 Hq). simpl; auto.
Qed.
Lemma hads_prodst : forall n D f, NoDup D -> (forall q, In q D -> (q < n)%nat) ->
  cden (map GHAD D) (prodst n f) = prodst n (fun q => if mem q D then hadf (f q) else f q).
Proof.
  intros n D. induction D as [|t D IH]; intros f N H; cbn [map]; [reflexivity|]. apply NoDup_cons_iff in N. destruct N as [N1 N2].
  rewrite cden_cons. cbn [gden]. rewrite had_prodst by (apply H; simpl; auto). rewrite IH by (auto; intros; apply H; simpl; auto).
  apply functional_extensionality. intros x. unfold prodst. apply cprod_ext. intros q _.
  assert (M : mem q (t :: D) = (Nat.eqb q t || mem q D)%bool).
  { destruct (Nat.eqb_spec q t) as [Eq|Nq]; simpl orb; [apply mem_spec; simpl; auto|]. destruct (mem q D) eqn:E.
    - apply mem_spec in E. apply mem_spec. simpl; auto.
    - apply mem_false in E. apply mem_false. simpl. intros [Y|Y]; auto. }
  rewrite M. destruct (Nat.eqb_spec q t) as [Eq|Nq]; simpl orb; auto.
  subst q. replace (mem t D) with false by (symmetry; apply mem_false; auto). reflexivity.
Qed.
Definition tr (c t q : nat) : nat := if Nat.eqb q t then c else if Nat.eqb q c then t else q.
Lemma swapq_tr : forall x c t q, swapq x c t q = x (tr c t q).
Proof. intros. unfold swapq, GraphSem.upd, tr. destruct (Nat.eqb q t); auto. destruct (Nat.eqb q c); auto. Qed.
Lemma tr_tr : forall c t q, tr c t (tr c t q) = q.
Proof.
  intros. unfold tr. destruct (Nat.eqb_spec q t) as [->|A].
  - destruct (Nat.eqb_spec c t); auto. rewrite Nat.eqb_refl. auto.
  - destruct (Nat.eqb_spec q c) as [->|B]; [rewrite Nat.eqb_refl; auto|]. destruct (Nat.eqb_spec q t); [congruence|]. destruct (Nat.eqb_spec q c); congruence.
Qed.
Lemma swap_basis : forall n c t i, (c < n)%nat -> (t < n)%nat -> gden (GSWAP c t) (basis n i) = basis n (swapq i c t).
Proof.
  intros n c t i Hc Ht. apply functional_extensionality. intros x. cbn [gden]. unfold basis.
  assert (P : Permutation (seq 0 n) (map (tr c t) (seq 0 n))).
  { apply nodup_same_perm; [apply seq_NoDup| |].
    - apply FinFun.Injective_map_NoDup; [|apply seq_NoDup]. intros a b E. rewrite <- (tr_tr c t a), E, tr_tr. auto.
    - assert (R : forall q, (q < n)%nat -> (tr c t q < n)%nat) by (intros q Q; unfold tr; destruct (Nat.eqb q t); auto; destruct (Nat.eqb q c); auto).
      intros v. rewrite in_map_iff, in_seq. split.
      + intros Hv. exists (tr c t v). rewrite tr_tr, in_seq. split; auto. specialize (R v). lia.
      + intros [q [<- Hq]]. apply in_seq in Hq. specialize (R q). lia. }
  rewrite (cprod_perm _ _ _ _ P), cprod_map'. apply cprod_ext. intros q _. rewrite !swapq_tr, tr_tr. auto.
Qed.
Definition asg (a : list bool) : assignment := fun q => nth q a false.
Lemma swaps_basis : forall n sw a, length a = n -> (forall ij, In ij sw -> (fst ij < n)%nat /\ (snd ij < n)%nat) ->
  cden (map (fun ij => GSWAP (fst ij) (snd ij)) sw) (basis n (asg a)) = basis n (asg (run_swaps false sw a)).
Proof.
  intros n sw. induction sw as [|[c t] sw IH]; intros a L H; [reflexivity|]. cbn [map fst snd]. rewrite cden_cons.
  destruct (H (c, t) (or_introl eq_refl)) as [Hc Ht]. cbn [fst snd] in Hc, Ht. rewrite swap_basis by auto. unfold run_swaps. cbn [fold_left]. fold (run_swaps false sw (swap2 false a (c, t))).
  rewrite <- IH.
  - f_equal. apply basis_ext. intros q Q. rewrite swapq_tr. unfold asg. rewrite swap2_nth by lia. unfold tr.
    destruct (Nat.eqb_spec q t) as [A|A], (Nat.eqb_spec q c) as [B|B]; auto. congruence.
  - rewrite swap2_len. auto.
  - intros ij Y. apply H. simpl; auto.
Qed.

(** ** graph_to_swaps *)
Definition nup {A} (f : nat -> A) (k : nat) (v : A) : nat -> A := fun q => if Nat.eqb q k then v else f q.
Lemma nup_eq : forall A (f : nat -> A) k v, nup f k v k = v.
Proof. intros. unfold nup. rewrite Nat.eqb_refl. auto. Qed.
Lemma nup_neq : forall A (f : nat -> A) k v q, q <> k -> nup f k v q = f q.
Proof. intros. unfold nup. destruct (Nat.eqb_spec q k); congruence. Qed.
Lemma swaps_all : forall l g gs sm lo g' gs' sm' lo', wfg g -> io_ok g -> NoDup (map fst l) -> NoDup (map snd l) ->
  (forall q v, In (q, v) l -> In v (goutputs g)) -> (forall q, In q (map fst l) -> ~ In q (map fst sm)) ->
  foldM swaps_one l (g, gs, sm, lo) = Ok (g', gs', sm', lo') ->
  exists e sg D, gs' = map GHAD D ++ gs /\ NoDup D /\ (forall q, In q D <-> In q (map fst l) /\ e q = HADAMARD) /\
    sm' = sm ++ map (fun q => (q, sg q)) (map fst l) /\ (lo' = false -> lo = false /\ forall q, In q (map fst l) -> sg q = q) /\
    ginputs g' = ginputs g /\ goutputs g' = goutputs g /\
    (forall q v, In (q, v) l -> (sg q < nin g)%nat /\ edge_type g v (nth (sg q) (ginputs g) 0%nat) = Some (e q)).
Proof.
  induction l as [|[q v] l IH]; intros g gs sm lo g' gs' sm' lo' W IO NF NS HO HS H.
  - injection H as <- <- <- <-. exists (fun _ => SIMPLE), (fun q => q), []. simpl. rewrite app_nil_r. repeat split; auto; try tauto; try constructor; intros; contradiction.
  - cbn [foldM] in H. inv_bind H. destruct a as [[[g1 gs1] sm1] lo1]. unfold swaps_one in E. inv_bind E. destruct (neighbors_r_inv _ _ _ E0) as [Hv ->].
    destruct (neighbors g v) as [|inp r] eqn:NE; [discriminate E|]. destruct (nmem inp (ginputs g)) eqn:NM; [|discriminate E]. cbn [negb] in E.
    inv_bind E. rename a into et. apply of_opt_some in E1. rename E1 into ET. inv_bind E. destruct a as [g2 gs2]. rename E1 into ES.
    assert (NI : In inp (ginputs g)) by (apply nmem_spec; auto).
    assert (OV : In v (goutputs g)) by (apply (HO q v); simpl; auto).
    destruct (nd_app _ _ _ IO) as [NI1 [NO1 DIS]].
    assert (GG : wfg g2 /\ ginputs g2 = ginputs g /\ goutputs g2 = goutputs g /\ gs2 = (match et with HADAMARD => [GHAD q] | SIMPLE => [] end) ++ gs /\
      forall o, In o (goutputs g) -> o <> v -> forall w, edge_type g2 o w = edge_type g o w).
    { destruct et.
      - injection ES as <- <-. auto 6.
      - inv_bind ES. injection ES as <- <-. destruct (set_edge_type_spec _ _ _ _ _ W E1) as [W2 [S2 [_ [_ [_ [_ T2]]]]]]. split; auto. destruct S2 as [_ [_ [S2 [S3 _]]]]. repeat split; auto.
        intros o Ho No w. rewrite T2, pair_hit_false; auto; intros Y; injection Y as Y1 Y2; [congruence|]. subst o. apply (DIS inp); auto. }
    destruct GG as [W2 [I2 [O2 [-> EU]]]].
    inv_bind E. rename a into q2. injection E as <- <- <- <-. rewrite I2 in E1. destruct (index_ok inp (ginputs g) NI) as [j [J1 [J2 J3]]]. rewrite E1 in J1. injection J1 as <-.
    change (NoDup (q :: map fst l)) in NF. change (NoDup (v :: map snd l)) in NS. apply NoDup_cons_iff in NF. apply NoDup_cons_iff in NS. destruct NF as [NF1 NF2]. destruct NS as [NS1 NS2].
    assert (FR : ~ In q (map fst sm)) by (apply HS; simpl; auto). rewrite dput_new in H by auto.
    destruct (IH g2 (match et with HADAMARD => [GHAD q] | SIMPLE => [] end ++ gs) (sm ++ [(q, q2)]) (lo || negb (Nat.eqb q2 q)) g' gs' sm' lo' W2) as [e [sg [D [E3 [ND [HD [E4 [HL [I3 [O3 HE]]]]]]]]]]; try exact H; auto.
    { unfold io_ok. rewrite I2, O2. auto. }
    { intros p w Hp. rewrite O2. apply (HO p w). simpl; auto. }
    { intros p Hp Y. rewrite map_app, in_app_iff in Y. destruct Y as [Y|[Y|[]]]; [apply (HS p); simpl; auto|simpl in Y; subst; auto]. }
    exists (nup e q et), (nup sg q q2), (D ++ match et with HADAMARD => [q] | SIMPLE => [] end).
    assert (NQ : forall p, In p (map fst l) -> p <> q) by (intros p Hp ->; auto).
    assert (ND1 : ~ In q D) by (intros Y; apply HD in Y; tauto).
    split; [|split; [|split; [|split; [|split; [|split; [|split]]]]]].
    + rewrite E3, map_app, <- app_assoc. destruct et; auto.
    + destruct et; [rewrite app_nil_r; auto|]. apply RuleLemmas.nodup_app; auto; [repeat constructor; simpl; tauto|]. intros x Hx [<-|[]]. auto.
    + intros p. rewrite in_app_iff, HD. cbn [map fst In]. destruct (Nat.eq_dec p q) as [->|Np].
      * rewrite nup_eq. destruct et; simpl; split; intros Y; try tauto; try (destruct Y as [_ Y]; discriminate Y); destruct Y as [[Y _]|[]]; contradiction.
      * rewrite nup_neq by auto. destruct et; simpl; split; intros Y; intuition congruence.
    + rewrite E4, <- app_assoc. cbn [map fst app]. rewrite nup_eq. f_equal. f_equal. apply map_ext_in. intros p Hp. rewrite nup_neq; auto.
    + intros L. destruct (HL L) as [LX HL']. apply orb_false_iff in LX. destruct LX as [L1 LX]. apply negb_false_iff, Nat.eqb_eq in LX. split; auto.
      intros p [<-|Hp]; cbn [fst]; [rewrite nup_eq; auto|rewrite nup_neq by auto; apply HL'; auto].
    + congruence.
    + congruence.
    + intros p w [Y|Y].
      * injection Y as <- <-. rewrite !nup_eq, J3. split; auto.
      * assert (Hp : In p (map fst l)) by (apply in_map_iff; exists (p, w); auto). assert (Np := NQ p Hp). rewrite !nup_neq by auto. destruct (HE p w Y) as [H1 H2]. unfold nin in *. rewrite I2 in H1, H2. split; auto. rewrite <- EU; auto.
        -- apply (HO p w). simpl; auto.
        -- intros ->. apply NS1. apply in_map_iff. exists (p, v). auto.
Qed.

Lemma swap_gates : forall sw gs, fold_left (fun gs tt0 => GSWAP (fst tt0) (snd tt0) :: gs) sw gs = map (fun ij => GSWAP (fst ij) (snd ij)) (rev sw) ++ gs.
Proof.
  induction sw as [|a sw IH]; intros gs; auto. cbn [fold_left rev]. rewrite IH, map_app, <- app_assoc. reflexivity.
Qed.
Lemma combine_snd : forall A B (l : list A) (l' : list B), length l = length l' -> map snd (combine l l') = l'.
Proof. induction l as [|a l IH]; intros [|b l'] H; simpl in *; try discriminate; auto. f_equal. apply IH. lia. Qed.
Lemma combine_fst : forall A B (l : list A) (l' : list B), length l = length l' -> map fst (combine l l') = l.
Proof. induction l as [|a l IH]; intros [|b l'] H; simpl in *; try discriminate; auto. f_equal. apply IH. lia. Qed.
(** A function that is one-to-one on the qubits [0..n-1] *)
Definition qperm (n : nat) (sg : nat -> nat) : Prop :=
  (forall q, (q < n)%nat -> (sg q < n)%nat) /\ forall q p, (q < n)%nat -> (p < n)%nat -> sg q = sg p -> q = p.
Lemma qperm_perm : forall n sg, qperm n sg -> Permutation (map sg (seq 0 n)) (seq 0 n).
Proof.
  intros n sg [R I]. apply NoDup_Permutation_bis.
  - assert (Y : forall l, NoDup l -> (forall q, In q l -> (q < n)%nat) -> NoDup (map sg l)).
    { induction l as [|a l IHl]; intros Nl Hl; simpl; [constructor|]. apply NoDup_cons_iff in Nl. destruct Nl as [N1 N2]. constructor; [|apply IHl; auto; intros; apply Hl; simpl; auto].
      intros Y. apply in_map_iff in Y. destruct Y as [b [Y1 Y2]]. apply I in Y1; [subst; auto| |]; apply Hl; simpl; auto. }
    apply Y; [apply seq_NoDup|intros q Hq; apply in_seq in Hq; lia].
  - rewrite map_length. auto.
  - intros q Hq. apply in_map_iff in Hq. destruct Hq as [p [<- Hp]]. apply in_seq in Hp. apply in_seq. specialize (R p). lia.
Qed.
Lemma swaps_perm : forall n sg sw i, qperm n sg -> permutation_as_swaps (map (fun q => (q, sg q)) (seq 0 n)) = Ok sw ->
  cden (map (fun ij => GSWAP (fst ij) (snd ij)) (rev sw)) (basis n i) = basis n (fun q => i (sg q)) /\
  forall ij, In ij sw -> (fst ij < snd ij)%nat /\ (snd ij < n)%nat.
Proof.
  intros n sg sw i Q H. set (p := map (fun q => (q, sg q)) (seq 0 n)) in *.
  assert (Lp : length p = n) by (unfold p; rewrite map_length, seq_length; auto).
  assert (PD : perm_dict p).
  { unfold perm_dict, p. rewrite !map_map, map_length, seq_length. cbn [fst snd]. rewrite map_id. split; auto. apply (qperm_perm n sg Q). }
  destruct (swaps_ok p PD) as [sw' [E [R _]]]. rewrite H in E. injection E as <-.
  assert (RR : forall ij, In ij sw -> (fst ij < snd ij)%nat /\ (snd ij < n)%nat) by (intros ij Y; specialize (R ij Y); lia).
  split; auto. set (a := map i (seq 0 n)).
  assert (La : length a = n) by (unfold a; rewrite map_length, seq_length; auto).
  assert (NA : forall q, (q < n)%nat -> nth q a false = i q).
  { intros q Hq. unfold a. apply LinAlg.nth_map_seq. auto. }
  rewrite (basis_ext n i (asg a)) by (intros q Hq; unfold asg; rewrite NA; auto).
  rewrite swaps_basis; auto.
  2:{ intros ij Y. apply in_rev in Y. apply RR in Y. lia. }
  apply basis_ext. intros q Hq. unfold asg. rewrite (swaps_rev p sw PD H bool false a ltac:(lia) q (sg q)); [apply NA; apply Q; auto|].
  unfold p. apply in_map_iff. exists q. split; auto. apply in_seq. lia.
Qed.
Lemma had_wt : forall j c, hadf (fun b => dlt j b) c = wt (Some HADAMARD) j c.
Proof. intros j c. rewrite wtH. unfold hadf, dlt. destruct j, c; simpl; ring. Qed.

(** The circuit graph_to_swaps gives for a diagram with as many inputs as outputs *)
Lemma graph_to_swaps_ok : forall up g c g', zinv g -> io_ok g -> graph_to_swaps up g = Ok (c, g') ->
  cqubits c = nin g /\ ginputs g' = ginputs g /\ goutputs g' = goutputs g /\ (nin g = nout g ->
  Forall (gate_in (nout g)) (cgates c) /\
  exists K sg, qperm (nout g) sg /\ (up = false -> forall q, sg q = q) /\ forall i y, val g i y = K * cden (cgates c) (basis (nout g) (fun q => i (sg q))) y).
Proof.
  intros up g c g' Z IO H. assert (W := zx_wf _ (zi_zx _ Z)). assert (BD := zi_deg _ Z). unfold graph_to_swaps in H. inv_bind H. destruct a as [[[g1 gs] sm] lo].
  set (n := nout g) in *. assert (LC : length (seq 0 n) = length (goutputs g)) by (rewrite seq_length; auto).
  destruct (nd_app _ _ _ IO) as [NI1 [NO1 DIS]].
  assert (CF : map fst (combine (seq 0 n) (goutputs g)) = seq 0 n) by (apply combine_fst; auto).
  assert (A1 : NoDup (map fst (combine (seq 0 n) (goutputs g)))) by (rewrite CF; apply seq_NoDup).
  assert (A2 : NoDup (map snd (combine (seq 0 n) (goutputs g)))) by (rewrite combine_snd; auto).
  destruct (swaps_all _ _ _ [] _ _ _ _ _ W IO A1 A2 (fun q v Hq => in_combine_r _ _ _ _ Hq) (fun q _ X => X) E) as [e [sg [D [E1 [ND [HD [E2 [HL [I1 [O1 HE]]]]]]]]]].
  rewrite CF in HD, E2, HL. rewrite app_nil_r in E1. cbn [app] in E2.
  assert (HQ : forall q, (q < n)%nat -> (sg q < nin g)%nat /\ edge_type g (outv g q) (nth (sg q) (ginputs g) 0%nat) = Some (e q)).
  { intros q Q. apply HE. replace (q, outv g q) with (nth q (combine (seq 0 n) (goutputs g)) (0%nat, 0%nat)).
    - apply nth_In. rewrite combine_length, LC. fold n. unfold nout in n. lia.
    - rewrite combine_nth by auto. rewrite seq_nth by auto. reflexivity. }
  assert (INJ : forall q p, (q < n)%nat -> (p < n)%nat -> sg q = sg p -> q = p).
  { intros q p Q P Y. apply (proj1 (NoDup_nth (goutputs g) 0%nat) NO1); auto.
    destruct (zx_io _ (zi_zx _ Z) (nth (sg q) (ginputs g) 0%nat)) as [A B]; [left; apply nth_In; apply HQ; auto|]. apply vtype_eqb_eq in B.
    assert (X := proj2 (bdeg_nb g _ W BD A B)). change (outv g q = outv g p).
    assert (Y1 : outv g q = nb g (nth (sg q) (ginputs g) 0%nat)) by (apply X; rewrite (wf_sym g W), (proj2 (HQ q Q)); discriminate).
    assert (Y2 : outv g p = nb g (nth (sg q) (ginputs g) 0%nat)) by (apply X; rewrite Y, (wf_sym g W), (proj2 (HQ p P)); discriminate).
    congruence. }
  assert (HADS : forall j y, cden (map GHAD D) (basis n j) y = cprod (fun q => wt (Some (e q)) (j q) (y q)) (seq 0 n)).
  { intros j y. change (basis n j) with (prodst n (fun q => dlt (j q))). rewrite hads_prodst; auto.
    2:{ intros q Hq. apply HD in Hq. destruct Hq as [Hq _]. apply in_seq in Hq. lia. }
    unfold prodst. apply cprod_ext. intros q Hq. destruct (mem q D) eqn:M.
    - apply mem_spec in M. apply HD in M. destruct M as [_ ->]. apply had_wt.
    - apply mem_false in M. destruct (e q) eqn:Ee; auto. exfalso. apply M. apply HD. auto. }
  assert (FD : Forall (gate_in n) (map GHAD D)).
  { apply Forall_forall. intros k Hk. apply in_map_iff in Hk. destruct Hk as [q [<- Hq]]. apply HD in Hq. destruct Hq as [Hq _]. apply in_seq in Hq.
    split; [split; [apply NoDup_cons; [simpl; tauto|apply NoDup_nil]|split; [discriminate|exact I]]|]. intros p [<-|[]]. lia. }
  destruct (negb up && lo) eqn:SW.
  - apply andb_true_iff in SW. destruct SW as [UP LO]. apply negb_true_iff in UP. subst up lo. inv_bind H. rename a into sw. injection H as <- <-. cbn [cqubits cgates].
    split; [unfold nin; congruence|]. split; auto. split; auto. intros EQ.
    assert (QP : qperm n sg) by (split; auto; intros q Q; destruct (HQ q Q); lia).
    destruct (wired_val g e sg Z IO EQ HQ) as [K HK]. rewrite E2 in E0. rewrite swap_gates. split.
    + apply Forall_app. split; [|rewrite E1; auto]. apply Forall_forall. intros k Hk. apply in_map_iff in Hk. destruct Hk as [[a b] [<- Hij]]. apply in_rev in Hij.
      destruct (proj2 (swaps_perm n sg sw (fun _ => false) QP E0) _ Hij) as [B1 B2]. cbn [fst snd] in *. split.
      * split; [|split; [discriminate|exact I]]. apply NoDup_cons; [|apply NoDup_cons; [simpl; tauto|apply NoDup_nil]]. intros [Y|[]]. lia.
      * intros p [<-|[<-|[]]]; lia.
    + exists K, (fun q => q). split; [split; auto|]. split; auto. intros i y. rewrite HK, cden_app.
      change (fun q => i q) with i. rewrite (proj1 (swaps_perm n sg sw i QP E0)), E1, HADS. reflexivity.
  - injection H as <- <-. cbn [cqubits cgates]. split; [unfold nin; congruence|]. split; auto. split; auto. intros EQ. rewrite E1. split; auto.
    destruct (wired_val g e sg Z IO EQ HQ) as [K HK].
    apply andb_false_iff in SW. destruct up; cbn [negb] in SW.
    + exists K, sg. split; [split; auto; intros q Q; destruct (HQ q Q); lia|]. split; [discriminate|]. intros i y. rewrite HK, HADS. reflexivity.
    + destruct SW as [SW|SW]; [discriminate|]. subst lo. destruct (HL eq_refl) as [_ HL']. exists K, (fun q => q). split; [split; auto|]. split; auto.
      intros i y. rewrite HK, HADS. f_equal. apply cprod_ext. intros q Hq. rewrite HL'; auto.
Qed.

(** ** extract_circuit *)
Lemma extract_ok : forall opt up g c g', gok g -> inv_map g -> hubs_ok g -> run (extract_circuit true opt up) g (Ok (c, g')) ->
  nin g = nout g /\ cqubits c = nout g /\ Forall (gate_in (nout g)) (cgates c) /\
  exists z sg, z <> C0 /\ qperm (nout g) sg /\ (up = false -> forall q, sg q = q) /\
    forall i y, val g i y = z * cden (cgates c) (basis (nout g) (fun q => i (sg q))) y.
Proof.
  intros opt up g c g' G M HB H. unfold extract_circuit in H. cbn [run pbind] in H.
  destruct H as [[e [H X]]|[s [g1 [H1 H]]]]; [discriminate X|]. cbn [run pdo] in H1. symmetry in H1. inv_bind H1. injection H1 as <- <-. rename a into s0.
  destruct H as [[e [H X]]|[s [g2 [H2 H]]]]; [discriminate X|]. destruct H as [[e [H X]]|[k [g3 [H3 H]]]]; [discriminate X|].
  assert (X0 := extract_init_ok g s0 G M HB E). assert (X2 := rounds_ok _ _ _ _ _ _ H2 X0). destruct X2 as [[G2 M2 [XI [XO [XF [z1 [Z1 XV]]]]] _ _] _].
  destruct (id_correct AllC g2 (gk_z _ G2)) as [_ [_ IC]]. destruct (IC _ H3) as [k' [g3' [Y [Z3 [[KI [KO [z2 [Z2 KV]]]] _]]]]]. injection Y as <- <-.
  cbn [run pdo] in H. unfold finish in H. symmetry in H. inv_bind H. destruct a as [c1 g4]. inv_bind H. rename a into c2. injection H as <- <-.
  assert (IO3 : io_ok g3) by (unfold io_ok; rewrite KI, KO; apply (gk_io _ G2)).
  destruct (graph_to_swaps_ok _ _ _ _ Z3 IO3 E0) as [Q1 [I4 [O4 R]]]. unfold c_add in E1. cbn [cqubits cgates] in E1.
  destruct (Nat.eqb_spec (cqubits c1) (length (goutputs g3))) as [QE|]; [|discriminate E1]. cbn [negb] in E1. injection E1 as <-. cbn [cqubits cgates].
  assert (N3 : nin g3 = nout g3) by (unfold nout; congruence). destruct (R N3) as [F3 [K [sg [QP [UP HV]]]]].
  assert (NO : nout g3 = nout g) by (unfold nout; congruence). assert (NI : nin g3 = nin g) by (unfold nin; congruence).
  rewrite NO in *. split; [congruence|]. split; [congruence|]. split; [apply Forall_app; split; auto; apply Forall_rev; auto|].
  assert (V2 : forall i y, val g2 i y = (/ z2 * K) * cden (cgates c1) (basis (nout g) (fun q => i (sg q))) y).
  { intros i y. unfold val at 1. specialize (KV (bits (ginputs g2) (goutputs g2) i y)). specialize (HV i y). unfold val in HV. rewrite KI, KO in HV. rewrite HV in KV.
    assert (W : / z2 * (K * cden (cgates c1) (basis (nout g) (fun q => i (sg q))) y) = / z2 * z2 * sem g2 (bits (ginputs g2) (goutputs g2) i y)) by (rewrite KV; ring).
    rewrite Cinv_l in W by auto. transitivity (C1 * sem g2 (bits (ginputs g2) (goutputs g2) i y)); [ring|]. rewrite <- W. ring. }
  assert (KN : K <> C0).
  { intros ->. apply C1_neq_C0. apply (im_one _ M2 (fun _ => C1)) with (i := fun _ => false); auto.
    intros y. rewrite (sumv_ext _ _ (fun _ => C0)); [apply sumv_0|]. intros i. rewrite V2. ring. }
  exists (z1 * (/ z2 * K)), sg. split; [apply Cmult_neq0; auto; apply Cmult_neq0; auto; apply Cinv_neq0; auto|]. split; auto. split; auto.
  intros i y. rewrite XV. rewrite (functional_extensionality (val g2 i) (fun x => (/ z2 * K) * cden (cgates c1) (basis (nout g) (fun q => i (sg q))) x) (V2 i)).
  rewrite cden_scale, cden_app. ring.
Qed.

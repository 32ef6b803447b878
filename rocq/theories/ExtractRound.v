(** The rounds of extract_circuit (extract.py 618-703) *)
From Coq Require Import Reals ZArith QArith Qcanon List Bool Arith Lia Permutation.
From Verif Require Import LinModel LinProofs CNum Base ScalarModel ScalarProofs GraphModel GraphSem SumLemmas GraphProofs GraphOps RulesModel RuleLemmas
  SpiderProofs IsoProofs IdProofs LcompProofs PivotProofs PivotMatch GrowProofs StoreProofs SimpModel ColorProofs SimpProofs PairProofs RuleShape InvProofs TermProofs BfixProofs RoundProofs TotalProofs GrowTotal
  GateModel CircSpec GateProofs GateMask AmpProofs CircGraphModel CircGraphProofs CircGraphFacts VerifyProofs GraphAlgModel GraphAlgProofs GraphAlgFacts
  ComposeProofs ApplyProofs ExtractModel ExtractSem ExtractMap ExtractClean ExtractCz ExtractFront ExtractNbrs ExtractCnot ExtractTake ExtractPivot.
Import ListNotations.
Open Scope C_scope.

Record xinv2 (g0 g : graph) (s : xst) : Prop := mkx2 { x2_x : xinv g0 g s; x2_n : NoDup (dkeys (x_gad s)) }.
Lemma apply_cnots_gad : forall cs m nb s g g' s', apply_cnots cs m nb s g = Ok (g', s') -> x_gad s' = x_gad s.
Proof.
  intros cs m nb s g g' s' H. unfold apply_cnots in H. inv_bind H. destruct a as [m1 cn]. inv_bind H. inv_bind H.
  destruct a0 as [|p0 l0] in H; [discriminate H|].
  inv_bind H. match goal with x : (graph * _ * _ * _)%type |- _ => destruct x as [[[g1 qm] fr] hads] end. injection H as <- <-. reflexivity.
Qed.
Lemma round_ok : forall opt g0 g s c s' b g', choice_ok g c -> xinv2 g0 g s -> round true opt s c g = Ok ((s', b), g') -> xinv2 g0 g' s'.
Proof.
  intros opt g0 g [qm fr gs gad] c s' b g' [CO1 [CO2 CO3]] [[G M X F GD] NG] H. unfold round in H. cbn [x_qm x_fr x_gs x_gad] in *.
  inv_bind H. destruct a as [g1 gs1].
  destruct (clean_frontier_ok opt (mkX qm fr gs gad) g g1 gs1 G M F E) as [new [-> [X1 [G1 [S1 [Cl FF]]]]]]. cbn [x_qm x_fr x_gs x_gad] in *.
  assert (M1 := ext_inv g g1 new G1 X1 M). assert (F1 := frok_soft _ _ _ _ G G1 S1 F). assert (GD1 := gadok_soft _ _ _ S1 GD).
  inv_bind H. destruct a as [[g2 fr2] nset].
  assert (FC : fclean g1 qm fr) by (constructor; auto).
  destruct (neighbors_of_frontier_ok qm gad fr g1 g2 fr2 nset G1 M1 FC GD1 E0) as [G2 [X2 [M2 [GD2 FY]]]].
  assert (X02 : ext g0 g2 (gs ++ new)).
  { rewrite <- (app_nil_r (gs ++ new)). eapply ext_trans; [eapply ext_trans; eauto|exact X2]. }
  destruct fr2 as [|v0 fr2'].
  { injection H as <- <- <-. constructor; auto. constructor; auto. apply (fc_f _ _ _ (fy_f _ _ _ _ FY)). }
  set (fr2 := v0 :: fr2') in *. clearbody fr2. set (s2 := mkX qm fr2 (gs ++ new) gad) in *.
  assert (RG : rginv g0 g2 s2) by (apply (fready_rg g0 g2 s2 nset); auto).
  inv_bind H. destruct a as [[g3 s3] rm].
  destruct (remove_gadget_loop (ch_so c) g0 (ch_ord c nset) g2 s2 false g3 s3 rm CO1 NG RG E1) as [RG3 [N3 K3]].
  destruct rm.
  { injection H as <- <- <-. constructor; auto. apply RG3. }
  destruct (K3 eq_refl) as [-> [-> [_ K]]]. clear K3 RG3 N3.
  assert (NGD : forall w, In w nset -> dmem w gad = false).
  { intros w Hw. destruct (dmem w gad) eqn:Dw; auto. exfalso. destruct (fy_a _ _ _ _ FY w Hw) as [v [Hv Ev]]. apply Ev.
    rewrite (wf_sym g2 (gk_wf g2 G2)). apply (K w); auto. eapply Permutation_in; [symmetry; apply CO2|auto]. }
  inv_bind H. destruct a as [g4 s4]. injection H as <- <- <-.
  destruct (forallb _ _) in E2.
  - destruct (ch_pick c (ch_ord c nset) (GflowModel.bi_adj g2 (ch_ord c nset) fr2)) as [nb cs] eqn:EP.
    destruct (CO3 (ch_ord c nset) (GflowModel.bi_adj g2 (ch_ord c nset) fr2)) as [Y1 Y2]. rewrite EP in Y1, Y2. cbn [fst snd] in Y1, Y2.
    constructor; [|rewrite (apply_cnots_gad _ _ _ _ _ _ _ E2); auto].
    eapply (apply_cnots_ok g0 s2 g2 cs nb nset g4 s4); auto. eapply perm_trans; [exact Y1|apply CO2].
  - constructor; [|rewrite (apply_cnots_gad _ _ _ _ _ _ _ E2); auto].
    eapply (apply_cnots_ok g0 s2 g2 [] (ch_ord c nset) nset g4 s4); auto; try (intros ? ? []; fail); apply CO2.
Qed.

(** ** The initial state *)
(** the spiders next to a spider of degree one have phase 0 or pi and no boundary neighbour *)
Definition hubs_ok (g : graph) : Prop := forall v n, vty g v = ZSP -> neighbors g v = [n] ->
  vty g n = ZSP /\ is_pauli (phase g n) = true /\ forall u, edge_type g n u <> None -> vty g u = ZSP.
Lemma gadget_init_ok : forall g l gad, gok g -> hubs_ok g -> incl l (vertices g) -> gadok g gad -> NoDup (dkeys gad) ->
  gadok g (fold_left (gadget_init g) l gad) /\ NoDup (dkeys (fold_left (gadget_init g) l gad)).
Proof.
  intros g l. induction l as [|v l IH]; intros gad G H L GD N; simpl; auto.
  assert (Iv : In v (vertices g)) by (apply L; simpl; auto). assert (Ll : incl l (vertices g)) by (intros u Hu; apply L; simpl; auto).
  assert (K : gadok g (gadget_init g gad v) /\ NoDup (dkeys (gadget_init g gad v))).
  { unfold gadget_init. destruct (neighbors g v) as [|n [|]] eqn:EN; auto. destruct (nmem v (ginputs g) || nmem v (goutputs g)) eqn:B; auto.
    split; [|apply nodup_dset; auto]. apply orb_false_iff in B. rewrite <- !not_true_iff_false, !nmem_spec in B. destruct B as [Bi Bo].
    intros w Dw Iw. unfold dmem in Dw. rewrite dget_dset in Dw. destruct (Nat.eqb_spec w n) as [Ew|D]; [|apply GD; auto]. rewrite Ew.
    assert (Tv : vty g v = ZSP).
    { destruct (proj1 (gk_gl _ G) v Iv) as [T|T]; auto. destruct (zi_io _ (gk_z _ G) v Iv T); contradiction. }
    apply (H v n Tv EN). }
  destruct K as [K1 K2]. apply IH; auto.
Qed.

Lemma combine_seq : forall (l : list nat) k i o, In (i, o) (combine (seq k (length l)) l) -> (k <= i)%nat /\ (i < k + length l)%nat /\ nth (i - k) l 0%nat = o.
Proof.
  induction l as [|a l IH]; intros k i o H; simpl in H; [destruct H|]. destruct H as [H|H].
  - injection H as <- <-. rewrite Nat.sub_diag. simpl. repeat split; auto; lia.
  - apply IH in H. destruct H as [A [B C]]. simpl. repeat split; try lia. replace (i - k)%nat with (S (i - S k)) by lia. exact C.
Qed.
Lemma frontier_init_ok : forall g l qm fr qm' fr', gok g -> inv_map g -> NoDup (map snd l) ->
  (forall i o, In (i, o) l -> (i < nout g)%nat /\ o = outv g i) -> frok g qm fr ->
  (forall v i o, In v fr -> In (i, o) l -> edge_type g v o = None) ->
  foldM (frontier_init g) l (qm, fr) = Ok (qm', fr') -> frok g qm' fr'.
Proof.
  intros g l. induction l as [|[i o] l IH]; intros qm fr qm' fr' G M ND HL F HN H; cbn [foldM] in H; [congruence|].
  destruct (HL i o (or_introl eq_refl)) as [Li Eo]. cbn [map snd] in ND. apply NoDup_cons_iff in ND. destruct ND as [ND1 ND2].
  assert (W := gk_wf g G). assert (Oo : In o (goutputs g)) by (subst o; apply nth_In; auto).
  inv_bind H. destruct a as [qm1 fr1]. unfold frontier_init in E. inv_bind E. apply neighbors_r_inv in E0. destruct E0 as [Io ->].
  destruct (neighbors g o) as [|v nl] eqn:EN; [discriminate|].
  assert (Ev : edge_type g o v <> None) by (apply neighbors_spec; rewrite EN; simpl; auto).
  destruct (nmem v (ginputs g)) eqn:Bv.
  { injection E as <- <-. eapply IH; eauto; [intros; apply HL; simpl; auto|intros; eapply HN; simpl; eauto]. }
  injection E as <- <-.
  assert (Vv : In v (vertices g)) by (destruct (edge_type g o v) eqn:Y; [eapply edge_r; eauto|congruence]).
  assert (Tv : vty g v = ZSP).
  { destruct (proj1 (gk_gl _ G) v Vv) as [T|T]; auto. exfalso. destruct (zi_io _ (gk_z _ G) v Vv T) as [Y|Y].
    - apply nmem_spec in Y. congruence.
    - destruct (In_nth _ _ 0%nat Y) as [q [Q Eq]]. apply Ev. rewrite Eo, <- Eq. apply (no_out_wire g G M); auto. }
  assert (Nv : ~ In v fr) by (intros Y; apply Ev; rewrite (wf_sym g W); apply (HN v i o Y); simpl; auto).
  eapply IH; [auto|auto|auto|intros; apply HL; simpl; auto| | |exact H].
  - split.
    + apply RuleLemmas.nodup_app; [apply F|repeat constructor; simpl; tauto|]. intros x Hx [<-|[]]. auto.
    + intros u Hu. apply in_app_iff in Hu. destruct Hu as [Hu|[<-|[]]].
      * destruct (fk_v _ _ _ F u Hu) as [q [Q K]]. exists q. rewrite dget_dset. destruct (Nat.eqb_spec u v) as [->|]; [contradiction|]. auto.
      * exists i. rewrite dget_dset, Nat.eqb_refl. repeat split; auto. rewrite <- Eo, (wf_sym g W). auto.
  - intros u j p Hu Hp. apply in_app_iff in Hu. destruct Hu as [Hu|[<-|[]]]; [apply (HN u j p); simpl; auto|].
    destruct (edge_type g v p) eqn:Y; auto. exfalso. apply ND1. apply in_map_iff. exists (j, p). split; auto. cbn [snd].
    destruct (HL j p (or_intror Hp)) as [Lj Ep]. apply (one_outs g G M v); auto; [subst p; apply nth_In; auto|congruence|rewrite (wf_sym g W); auto].
Qed.
Lemma extract_init_ok : forall g s, gok g -> inv_map g -> hubs_ok g -> extract_init g = Ok s -> xinv2 g g s.
Proof.
  intros g s G M H E. unfold extract_init in E. inv_bind E. destruct a as [qm fr]. injection E as <-.
  destruct (gadget_init_ok g (vertices g) [] G H (incl_refl _)) as [K1 K2]; [intros w X; discriminate|constructor|].
  constructor; cbn [x_qm x_fr x_gs x_gad]; auto. constructor; cbn [x_qm x_fr x_gs x_gad]; auto; [apply ext_refl|].
  eapply (frontier_init_ok g _ [] []); [auto|auto| | | | |exact E0].
  - assert (X : forall (l : list nat) k, map snd (combine (seq k (length l)) l) = l) by (induction l as [|a l IH]; intros k; simpl; [auto|rewrite IH; auto]).
    rewrite X. apply (gk_nd_out g G).
  - intros i o Y. apply combine_seq in Y. destruct Y as [_ [Y1 Y2]]. rewrite Nat.sub_0_r in Y2. unfold nout, outv. split; [lia|auto].
  - split; [constructor|intros v []].
  - intros v i o [].
Qed.
(** ** All rounds *)
Lemma rounds_ok : forall opt g0 s g s' g', run (ploop (fun s => pchoose choice_ok (round true opt s)) s) g (Ok (s', g')) -> xinv2 g0 g s -> xinv2 g0 g' s'.
Proof.
  intros opt g0 s g s' g' H. cbn [run ploop] in H. remember (Ok (s', g')) as r eqn:Er. revert s' g' Er.
  induction H as [a g e R|a g a1 g1 R|a g a1 g1 r R R' IH]; intros s' g' Er I; [discriminate| |].
  - injection Er as <- <-. destruct R as [c [CO R]]. symmetry in R. eapply round_ok; eauto.
  - destruct R as [c [CO R]]. symmetry in R. eapply IH; eauto. eapply round_ok; eauto.
Qed.

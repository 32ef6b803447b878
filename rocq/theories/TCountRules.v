(** No rewrite rule and no simplifier increases the number of non-Clifford
    spiders. *)
From Coq Require Import Reals ZArith QArith Qcanon List Bool Arith Lia Permutation.
From Verif Require Import LinModel LinProofs CNum Base ScalarModel ScalarProofs GraphModel GraphSem SumLemmas GraphProofs GraphOps StoreProofs
  RulesModel RuleLemmas SpiderProofs IsoProofs IdProofs LcompProofs PivotProofs GrowProofs PivotMatch GadgetProofs
  SimpModel ColorProofs SimpProofs PairProofs RuleShape TermProofs InvProofs RoundProofs BfixProofs TotalProofs GrowTotal FullTotal TCount SuppProofs SuppFacts.
Import ListNotations.
Open Scope nat_scope.

(** ** Spider fusion: two phases become one *)
Lemma keep_snoc : forall rem v g, keep (rem ++ [v]) g = filter (fun u => negb (Nat.eqb u v)) (keep rem g).
Proof.
  intros rem v g. unfold keep. induction (vertices g) as [|u l IH]; auto. cbn [filter]. rewrite IH.
  assert (X : mem u (rem ++ [v]) = mem u rem || Nat.eqb u v).
  { apply eq_true_iff_eq. rewrite orb_true_iff, !mem_spec, in_app_iff, Nat.eqb_eq. simpl. intuition. }
  rewrite X. destruct (mem u rem); cbn [orb negb filter]; auto. 
Qed.
Lemma merge_count : forall (f f' : nat -> bool) l v0 v1, NoDup l -> In v1 l -> v0 <> v1 -> (forall u, u <> v0 -> f' u = f u) -> (f' v0 = true -> f v0 = true \/ f v1 = true) ->
  length (filter f' (filter (fun u => negb (Nat.eqb u v1)) l)) <= length (filter f l).
Proof.
  intros f f' l v0 v1 N I1 D A B. set (l1 := filter (fun u => negb (Nat.eqb u v1)) l).
  assert (N1 : NoDup l1) by (apply NoDup_filter; auto).
  assert (M : forall u, In u l1 <-> In u l /\ u <> v1) by (intros u; unfold l1; rewrite filter_In, negb_true_iff, Nat.eqb_neq; tauto).
  destruct (f' v0) eqn:F'; [destruct (f v0) eqn:F|].
  - apply NoDup_incl_length; [apply NoDup_filter; auto|]. intros u. rewrite !filter_In, M. intros [[H _] T]. split; auto. destruct (Nat.eq_dec u v0) as [->|E]; auto. rewrite <- A; auto.
  - destruct (B eq_refl) as [X|X]; [discriminate|]. apply Nat.le_trans with (length (v0 :: filter f l1)).
    + apply NoDup_incl_length; [apply NoDup_filter; auto|]. intros u. rewrite filter_In. intros [H T]. destruct (Nat.eq_dec u v0) as [->|E]; [simpl; auto|]. right. apply filter_In. split; auto. rewrite <- A; auto.
    + change (length (v0 :: filter f l1)) with (length (v1 :: filter f l1)). apply NoDup_incl_length.
      * constructor; [|apply NoDup_filter; auto]. rewrite filter_In, M. tauto.
      * intros u [<-|H]; apply filter_In; auto. rewrite filter_In, M in H. tauto.
  - apply NoDup_incl_length; [apply NoDup_filter; auto|]. intros u. rewrite !filter_In, M. intros [[H _] T]. split; auto. destruct (Nat.eq_dec u v0) as [->|E]; [congruence|]. rewrite <- A; auto.
Qed.
Lemma foldM_fst : forall S A (f : S -> A -> res S) (P : list A -> S -> Prop) l done s s',
  (forall s a s' done, P done s -> In a l -> f s a = Ok s' -> P (done ++ [a]) s') -> P done s -> foldM f l s = Ok s' -> P (done ++ l) s'.
Proof.
  intros S A f P l. induction l as [|a l IH]; intros done s s' HS H0 E; cbn [foldM] in E; [injection E as <-; rewrite app_nil_r; auto|].
  inv_bind E. replace (done ++ a :: l) with ((done ++ [a]) ++ l) by (rewrite <- app_assoc; auto). apply (IH _ a0); auto.
  - intros. eapply HS; eauto. right; auto.
  - eapply HS; eauto. left; auto.
Qed.
Lemma spider_tnumL : forall g ms o, wfg g -> (forall m, In m ms -> spider_ok g m) -> NoDup (map (fun m => snd (sk g m)) ms) -> spider ms g = Ok o ->
  tnumL (rw_verts o) (rw_graph o) <= tnum g.
Proof.
  intros g ms o W HO ND H. unfold spider in H. inv_bind H. destruct a as [[g' tab'] rem']. injection H as <-. cbn [rw_graph rw_verts].
  assert (X := foldM_fst _ _ spider_one (fun done (st : graph * etab * list nat) => let '(h, tab, rem) := st in NoDup (map (fun m => snd (sk g m)) done) -> 
     (forall m, In m done -> In m ms) -> rem = map (fun m => snd (sk g m)) done /\ vertices h = vertices g /\ grindex h = grindex g /\ tnumL rem h <= tnum g) ms [] (g, [], []) (g', tab', rem')).
  destruct X as [_ [_ [_ X]]]; auto.
  - intros [[h tab] rem] m [[h2 tab2] rem2] done HI Hm E1 N HD. rewrite map_app in N.
    destruct (nodup_app_inv _ _ _ N) as [N1 [_ N3]]. destruct HI as [-> [V [R T]]]; auto. { intros x Hx. apply HD, in_app_iff. auto. }
    unfold spider_one in E1. replace (if qeqb (row h (fst m)) 0%Qc then (snd m, fst m) else (fst m, snd m)) with (sk g m) in E1 by (unfold sk, row; rewrite R; reflexivity).
    assert (OK := spider_ok_sk g m W (HO m Hm)). destruct (sk g m) as [v0 v1] eqn:SK. destruct (etab_get _ _) as [[? ?]|]; [|discriminate]. injection E1 as <- _ <-.
    rewrite map_app. cbn [map]. rewrite SK. cbn [snd]. split; auto. split; [exact V|]. split; [exact R|]. eapply Nat.le_trans; [|exact T]. unfold tnumL.
    rewrite keep_snoc. replace (keep (map (fun m0 => snd (sk g m0)) done) (add_to_phase v0 (phase h v1) h)) with (keep (map (fun m0 => snd (sk g m0)) done) h) by reflexivity.
    destruct OK as [O1 [O2 _]]. cbn [fst snd] in *. apply (merge_count (nc h) _ _ v0 v1).
    + unfold keep. rewrite V. apply NoDup_filter, wf_nd; auto.
    + apply in_keep. split; [rewrite V; apply (edge_type_in_l g v1 v0); rewrite (wf_sym g W); congruence|]. intros X. apply (N3 v1); auto. cbn. rewrite SK. simpl; auto.
    + auto.
    + intros u D. unfold nc. rewrite phase_add_to_phase. destruct (Nat.eqb_spec u v0); congruence.
    + unfold nc. rewrite phase_add_to_phase, Nat.eqb_refl. intros X. apply nc_sum in X. exact X.
  - intros _ _. cbn [map]. split; auto. split; auto. split; auto. apply tnumL_le; auto.
Qed.

(** ** Rules that add Clifford phases *)
Lemma nceq_scalar : forall f g, nceq g (on_scalar f g). Proof. intros. apply nceq_ph. reflexivity. Qed.
Lemma lcomp_nceq : forall g ms o, (forall m, In m ms -> nc g (fst m) = false) -> lcomp ms g = Ok o -> nceq g (rw_graph o).
Proof.
  intros g ms o HO H. unfold lcomp in H. destruct (fold_left lcomp_one ms (g, [], [])) as [[g' tab'] rem'] eqn:E. injection H as <-. cbn [rw_graph].
  change g' with (fst (fst (g', tab', rem'))). rewrite <- E. clear E g' tab' rem'.
  assert (X : forall ms h tab rem, (forall m, In m ms -> nc g (fst m) = false) -> nceq g h -> nceq g (fst (fst (fold_left lcomp_one ms (h, tab, rem))))); [|apply X; auto; apply nceq_refl].
  clear. induction ms as [|[v vn] ms IH]; intros h tab rem HO N; auto. cbn [fold_left]. unfold lcomp_one at 2. apply IH; [intros; apply HO; right; auto|].
  assert (C : clif (- phase h v)%Qc) by (apply clif_opp, nc_clif; change (nc h v = false); rewrite (N v); apply (HO (v, vn)); left; auto).
  eapply nceq_trans; [exact N|]. eapply nceq_trans; [|apply (nceq_adds vn _ _ C)]. eapply nceq_trans; apply nceq_scalar.
Qed.
Lemma pivot_side_nceq : forall g v w b nw n2 st, nc g v = false -> nceq g (fst (fst (fst st))) -> nceq g (fst (fst (fst (pivot_side v w b nw n2 st)))).
Proof.
  intros g v w b nw n2 [[[h tab] rem] reme] C N. cbn [fst] in N. assert (CL : clif (phase h v)) by (apply nc_clif; rewrite <- C; apply N).
  assert (X : nceq g (if qeqb (phase h v) 0%Qc then h else add_phases n2 (phase h v) (add_phases nw (phase h v) h))).
  { destruct (qeqb _ _); auto. eapply nceq_trans; [exact N|]. eapply nceq_trans; apply nceq_adds; auto. }
  unfold pivot_side. destruct b as [|u b]; [exact X|]. destruct (match etab_get _ _ with Some c => c | None => (0,0) end) as [? ?]. exact X.
Qed.
Lemma pivot_nceq : forall so g ms o, (forall m, In m ms -> nc g (fst (fst m)) = false /\ nc g (snd (fst m)) = false) -> pivot so ms g = Ok o -> nceq g (rw_graph o).
Proof.
  intros so g ms o HO H. unfold pivot in H. inv_bind H. destruct a as [[[g' tab'] rem'] reme']. injection H as <-. cbn [rw_graph].
  change g' with (fst (fst (fst (g', tab', rem', reme')))).
  refine (StoreProofs.foldM_inv _ _ _ (fun st => nceq g (fst (fst (fst st)))) ms (g, [], [], []) _ (nceq_refl g) _ E).
  intros [[[h tab] rem] reme] [[v0 v1] [b0 b1]] st' N Hm E1. cbn [fst] in N. destruct (HO _ Hm) as [C0 C1]. cbn [fst snd] in *.
  unfold pivot_one in E1. inv_bind E1. destruct a as [[n0 n1] n2]. cbv zeta in E1.
  match type of E1 with context [pivot_side v1 v0 b1 n0 n2 ?s] => assert (X : nceq g (fst (fst (fst (pivot_side v1 v0 b1 n0 n2 s))))) end.
  { apply pivot_side_nceq; auto. apply pivot_side_nceq; auto. cbn [fst].
    match goal with |- context [add_phases n2 1%Qc ?h0] => apply nceq_trans with (add_phases n2 1%Qc h0); [eapply nceq_trans; [exact N|eapply nceq_trans; [apply nceq_scalar|apply nceq_adds, clif_1]]|apply nceq_ph] end.
    destruct b0, b1; match goal with |- context [if ?c then _ else _] => destruct c end; reflexivity. }
  destruct (pivot_side v1 v0 b1 n0 n2 _) as [[[h' t'] r'] e']. injection E1 as <-. exact X.
Qed.
Lemma supp_nceq : forall g ms o, apply_supplementarity ms g = Ok o -> nceq g (rw_graph o).
Proof.
  intros g ms o H. unfold apply_supplementarity in H. destruct (fold_left supp_one ms (g, [])) as [g' rem'] eqn:E. injection H as <-. cbn [rw_graph].
  change g' with (fst (g', rem')). rewrite <- E. clear E g' rem'.
  assert (X : forall ms h rem, nceq g h -> nceq g (fst (fold_left supp_one ms (h, rem)))); [|apply X; auto; apply nceq_refl].
  clear. induction ms as [|[[[v w] two] ns] ms IH]; intros h rem N; auto. cbn [fold_left]. destruct (supp_one (h, rem) (v, w, two, ns)) as [h1 rem1] eqn:E. apply IH.
  eapply nceq_trans; [exact N|]. unfold supp_one in E. cbv zeta in E.
  destruct (negb two); match type of E with (if ?c then _ else _) = _ => destruct c end; injection E as <- _; try (apply nceq_ph; reflexivity); 
    (eapply nceq_trans; [|apply nceq_adds, clif_1]; apply nceq_ph; reflexivity).
Qed.

(** ** Gadgets: a non-Clifford phase is replaced *)
Lemma emit_dget : forall gadgets pa ms g ms' g', foldM (gadget_emit gadgets) pa (ms, g) = Ok (ms', g') ->
  (forall v n p og ot, In (v, n, p, og, ot) ms -> dget n gadgets = Some v) ->
  (forall v n p og ot, In (v, n, p, og, ot) ms' -> dget n gadgets = Some v) /\ exists s, g' = on_scalar (fun _ => s) g.
Proof.
  intros gadgets pa. induction pa as [|[par gad] pa IH]; intros ms g ms' g' H HM.
  - injection H as <- <-. split; auto. exists (gscalar g). destruct g; reflexivity.
  - cbn [foldM] in H. inv_bind H. destruct a as [ms1 g1].
    assert (X : (forall v n p og ot, In (v, n, p, og, ot) ms1 -> dget n gadgets = Some v) /\ exists s, g1 = on_scalar (fun _ => s) g).
    { clear IH H. unfold gadget_emit in E.
      assert (LV : forall gad l l', foldM (fun l n => let* v := gad_r gadgets n in Ok (l ++ [(n, v)])) gad l = Ok l' -> (forall n v, In (n, v) l -> dget n gadgets = Some v) -> forall n v, In (n, v) l' -> dget n gadgets = Some v).
      { clear. induction gad as [|n gad IH]; intros l l' E H; cbn [foldM] in E; [injection E as <-; auto|]. inv_bind E. inv_bind E0. injection E0 as <-. eapply IH; [exact E|]. intros m v Hv. apply in_app_iff in Hv.
        destruct Hv as [Hv|[Hv|[]]]; auto. injection Hv as <- <-. unfold gad_r in E1. destruct (dget n gadgets); [|discriminate]. injection E1 as ->. auto. }
      assert (SC : forall (l : list (nat * nat)) h, exists s, fold_left (fun g (nv : nat * nat) => let (n, v) := nv in if qeqb (phase g n) 0%Qc then g else on_scalar (s_add_phase (phase g v)) g) l h = on_scalar (fun _ => s) h).
      { clear. induction l as [|[n v] l IH]; intros h; [exists (gscalar h); destruct h; reflexivity|]. cbn [fold_left]. destruct (IH (if qeqb (phase h n) 0%Qc then h else on_scalar (s_add_phase (phase h v)) h)) as [s E].
        exists s. rewrite E. destruct (qeqb _ _); reflexivity. }
      destruct gad as [|n [|n2 gad]].
      - inv_bind E. cbn [foldM] in E0. injection E0 as <-. discriminate.
      - inv_bind E. destruct (qeqb _ _); injection E as <- <-; [split; auto; exists (gscalar g); destruct g; reflexivity|]. split; [|eexists; reflexivity].
        intros v n' p og ot Hm. apply in_app_iff in Hm. destruct Hm as [Hm|[Hm|[]]]; [eauto|]. injection Hm as <- <- _ _ _. unfold gad_r in E0. destruct (dget n gadgets); [|discriminate]. injection E0 as ->. auto.
      - inv_bind E. assert (L := LV _ _ _ E0 (fun n v (F : In (n, v) []) => match F with end)). destruct (SC a g) as [s Es]. cbv zeta in E. rewrite Es in E.
        destruct (rev a) as [|[x y] o] eqn:ER; [discriminate|]. injection E as <- <-. split; [|eexists; reflexivity].
        intros v n' p og ot Hm. apply in_app_iff in Hm. destruct Hm as [Hm|[Hm|[]]]; [eauto|]. injection Hm as <- <- _ _ _. apply L. apply in_rev. rewrite ER. left; auto. }
    destruct X as [X1 [s ->]]. destruct (IH _ _ _ _ H X1) as [Y1 [s' ->]]. split; auto. exists s'. reflexivity.
Qed.
Lemma collect_dget : forall g c st n v, (forall n v, dget n (fst st) = Some v -> neighbors g v = [n] /\ nc g v = true) -> dget n (fst (fold_left (gadget_collect g) c st)) = Some v -> neighbors g v = [n] /\ nc g v = true.
Proof.
  intros g c. induction c as [|u c IH]; intros [gad pa] n v H E; [apply (H n v E)|]. cbn [fold_left] in E. eapply IH; [|exact E]. clear E IH.
  intros m w. unfold gadget_collect. destruct (non_clifford (phase g u)) eqn:NC; [|apply H]. destruct (neighbors g u) as [|x [|]] eqn:EN; try apply H.
  destruct (negb _); [apply H|]. destruct (dmem _ _); [apply H|]. destruct (_ || _); [apply H|]. cbn [fst]. rewrite dget_dset. destruct (Nat.eqb_spec m x) as [->|]; [|apply H].
  intros X. injection X as <-. auto.
Qed.
Lemma gadget_les : forall g c ms g1 o, wfg g -> match_phase_gadgets c g = Ok (ms, g1) -> merge_phase_gadgets ms g1 = Ok o -> wfg (rw_graph o) /\ les g (rw_graph o).
Proof.
  intros g c ms g1 o W HM H. unfold match_phase_gadgets in HM. destruct (fold_left (gadget_collect g) c ([],[])) as [gadgets pa] eqn:EC.
  destruct (emit_dget _ _ _ _ _ _ HM) as [D [s ->]]; [intros ? ? ? ? ? []|].
  assert (L : forall v n p og ot, In (v, n, p, og, ot) ms -> In v (vertices g) /\ In n (vertices g) /\ nc g v = true).
  { intros v n p og ot Hm. apply D in Hm. destruct (collect_dget g c ([],[]) n v) as [N1 N2]; [intros ? ? X; discriminate X|rewrite EC; exact Hm|].
    assert (E : edge_type g v n <> None) by (apply neighbors_spec; rewrite N1; simpl; auto). split; [apply (edge_type_in_l g v n); auto|]. split; auto. apply (edge_type_in_l g n v). rewrite (wf_sym g W); auto. }
  clear D HM EC. unfold merge_phase_gadgets in H. rewrite merge_fold in H. injection H as <-. cbn [rw_graph].
  assert (X : forall ms h, (forall v n p og ot, In (v, n, p, og, ot) ms -> In v (vertices g) /\ In n (vertices g) /\ nc g v = true) -> wfg h -> vertices h = vertices g -> (forall u, nc h u = true -> nc g u = true) ->
    wfg (fold_left mstep ms h) /\ vertices (fold_left mstep ms h) = vertices g /\ forall u, nc (fold_left mstep ms h) u = true -> nc g u = true).
  { clear. induction ms as [|[[[[v n] p] og] ot] ms IH]; intros h L W V N; auto. cbn [fold_left]. destruct (L v n p og ot (or_introl eq_refl)) as [I1 [I2 NC]]. apply IH.
    - intros; eapply L; right; eauto.
    - unfold mstep. apply set_phase_wfg; [apply set_phase_wfg; auto; congruence|]. change (vertices (set_phase v p h)) with (vertices h). congruence.
    - exact V.
    - intros u. unfold mstep, nc. rewrite phase_set_phase. destruct (Nat.eqb_spec u n) as [->|]; [rewrite qmod2_0; discriminate|]. rewrite phase_set_phase. destruct (Nat.eqb_spec u v) as [->|]; [auto|]. apply N. }
  destruct (X ms (on_scalar (fun _ => s) g) L) as [X1 [X2 X3]]; auto. { apply on_scalar_wfg; auto. }
  split; auto. split; [apply X1|]. intros v Hv. split; [congruence|]. apply X3.
Qed.

(** ** Growing matchers: a phase moves to a fresh spider *)
Lemma move_phase : forall g g' v w, wfg g -> In w (vertices g) -> ~ In v (vertices g) -> vertices g' = vertices g ++ [v] ->
  nc g' v = nc g w -> nc g' w = false -> (forall u, u <> v -> u <> w -> nc g' u = nc g u) -> tnum g' <= tnum g.
Proof.
  intros g g' v w W Iw Iv V Nv Nw N. unfold tnum. rewrite V, filter_app, app_length. cbn [filter]. rewrite Nv.
  assert (ND := wf_nd g W).
  assert (A : forall u, In u (vertices g) -> nc g' u = true -> nc g u = true /\ u <> w).
  { intros u Hu T. assert (u <> v) by (intros ->; auto). assert (u <> w) by (intros ->; congruence). rewrite N in T by auto. auto. }
  destruct (nc g w) eqn:E; cbn [length].
  - rewrite Nat.add_comm. change (1 + length (filter (nc g') (vertices g))) with (length (w :: filter (nc g') (vertices g))). apply NoDup_incl_length.
    + constructor; [|apply NoDup_filter; auto]. rewrite filter_In. intros [_ X]. congruence.
    + intros u [<-|H]; apply filter_In; auto. apply filter_In in H. destruct H as [H T]. split; auto. apply A; auto.
  - rewrite Nat.add_0_r. apply NoDup_incl_length; [apply NoDup_filter; auto|]. intros u. rewrite !filter_In. intros [H T]. split; auto. apply A; auto.
Qed.
Lemma tnum_nceq : forall g g', vertices g' = vertices g -> nceq g g' -> tnum g' = tnum g.
Proof. intros g g' V N. unfold tnum. rewrite V. f_equal. apply filter_ext. exact N. Qed.
Lemma add_edges_tnum : forall es e g g', wfg g -> add_edges es e g = Ok g' -> wfg g' /\ tnum g' = tnum g.
Proof.
  intros es e g g' W H. destruct (add_edges_spec _ _ _ _ W H) as [W2 [F [PH _]]]. split; auto. apply tnum_nceq; [apply F|apply nceq_ph; auto].
Qed.
Lemma zsp_in : forall g v, wfg g -> vty g v = ZSP -> In v (vertices g).
Proof. intros g v W T. apply (wf_ty g W). unfold vty in T. destruct (dget v (gty g)) eqn:E; [|discriminate]. eapply dget_some_key; eauto. Qed.
Lemma pg_loop_tnum : forall num cands i disc el g ms el' g', wfg g -> match_pivot_gadget_loop num i cands disc el g = Ok (ms, el', g') -> wfg g' /\ tnum g' <= tnum g.
Proof.
  intros num cands. induction cands as [|[a b] cands IH]; intros i disc el g ms el' g' W H; cbn [match_pivot_gadget_loop] in H; [injection H as _ _ <-; auto|].
  destruct (lim_reached num i); [injection H as _ _ <-; auto|]. destruct (emem _ _); [eapply IH; eauto|].
  destruct (vtype_eqb (vty g a) ZSP && vtype_eqb (vty g b) ZSP) eqn:T; cbn [negb] in H; [|eapply IH; eauto]. apply andb_true_iff in T. destruct T as [Ta Tb]. apply vtype_eqb_eq in Ta, Tb.
  set (sel := if negb (is_pauli (phase g a)) then if is_pauli (phase g b) then Some (b, a, phase g a) else None else if is_pauli (phase g b) then None else Some (a, b, phase g b)) in H.
  assert (S : forall v0 v1 p, sel = Some (v0, v1, p) -> In v1 (vertices g) /\ p = phase g v1).
  { unfold sel. intros v0 v1 p. destruct (negb _); destruct (is_pauli (phase g b)); intros X; try discriminate; injection X as <- <- <-; split; auto; apply zsp_in; auto. }
  destruct sel as [[[v0 v1] p]|]; [|eapply IH; eauto]. destruct (S _ _ _ eq_refl) as [I1 ->]. destruct (Nat.eqb _ 1); [eapply IH; eauto|].
  destruct (gadget_scan g true (a, b) _) as [d0|]; [|eapply IH; eauto]. destruct (gadget_scan g false (a, b) _) as [d1|]; [|eapply IH; eauto].
  inv_bind H. destruct (add_vertex ZSP (Qcz (-2)) a0 (Some (phase g v1)) g) as [g1 v] eqn:AV. destruct (add_vertex_spec _ _ _ _ _ _ _ W AV) as [-> [W1 [V1 [_ [_ [_ [P1 _]]]]]]].
  inv_bind H. destruct a1 as [[ms1 el1] g2]. injection H as _ _ <-.
  set (g3 := set_qubit v0 (Qcz (-1)) (set_phase v1 0%Qc g1)) in *.
  assert (W3 : wfg g3). { assert (Y : wfg (set_phase v1 0%Qc g1)) by (apply set_phase_wfg; auto; rewrite V1; apply in_app_iff; auto). destruct Y. constructor; assumption. }
  destruct (IH _ _ _ _ _ _ _ W3 E0) as [X1 X2]. split; auto. eapply Nat.le_trans; [exact X2|].
  assert (F : ~ In (gvindex g) (vertices g)) by (apply fresh_not_in; auto).
  assert (P3 : forall u, phase g3 u = if Nat.eqb u v1 then qmod2 0%Qc else phase g1 u) by (intros u; apply (phase_set_phase g1 v1 0%Qc u)).
  assert (D : v1 <> gvindex g) by (intros ->; auto).
  apply (move_phase g g3 (gvindex g) v1); auto; unfold nc.
  - rewrite P3, P1. destruct (Nat.eqb_spec (gvindex g) v1); [congruence|]. rewrite Nat.eqb_refl. apply nc_mod.
  - rewrite P3, Nat.eqb_refl, qmod2_0. reflexivity.
  - intros u U1 U2. rewrite P3, P1. destruct (Nat.eqb_spec u v1); [contradiction|]. destruct (Nat.eqb_spec u (gvindex g)); [contradiction|]. auto.
Qed.
Lemma pb_loop_tnum : forall num cands i disc cons el g ms el' g', wfg g -> match_pivot_boundary_loop num i cands disc cons el g = Ok (ms, el', g') -> wfg g' /\ tnum g' <= tnum g.
Proof.
  intros num cands. induction cands as [|v cands IH]; intros i disc cons el g ms el' g' W H; cbn [match_pivot_boundary_loop] in H; [injection H as _ _ <-; auto|].
  destruct (lim_reached num i); [injection H as _ _ <-; auto|]. destruct (nmem _ _); [eapply IH; eauto|].
  destruct (negb (vtype_eqb (vty g v) ZSP) || negb (is_pauli (phase g v))); [eapply IH; eauto|].
  destruct (boundary_scan g cons (neighbors g v) None) as [[[w bound]|]|] eqn:BS; try (eapply IH; eauto; fail).
  destruct (boundary_scan_spec _ _ _ _ _ BS) as [_ S2]. destruct S2 as [S2|[w' [b' [S2 [S3 _]]]]]; [discriminate|]. injection S2 as <- <-.
  assert (Iw : In w (vertices g)) by (eapply neighbors_in; eauto).
  inv_bind H. destruct (add_vertex ZSP (Qcz (-2)) _ (Some (phase g w)) g) as [g1 v1] eqn:AV. destruct (add_vertex_spec _ _ _ _ _ _ _ W AV) as [-> [W1 [V1 [_ [_ [_ [P1 _]]]]]]].
  inv_bind H. destruct (add_vertex ZSP (Qcz (-1)) _ (Some 0%Qc) g1) as [g2 v2] eqn:AV2. destruct (add_vertex_spec _ _ _ _ _ _ _ W1 AV2) as [-> [W2 [V2 [_ [_ [_ [P2 _]]]]]]].
  inv_bind H. destruct a1 as [[ms1 el1] g3]. injection H as _ _ <-.
  set (g4 := set_phase w 0%Qc g2) in *.
  assert (W4 : wfg g4). { apply set_phase_wfg; auto. rewrite V2, V1, !in_app_iff; auto. }
  destruct (IH _ _ _ _ _ _ _ _ W4 E1) as [X1 X2]. split; auto. eapply Nat.le_trans; [exact X2|].
  assert (F : ~ In (gvindex g) (vertices g)) by (apply fresh_not_in; auto). assert (F1 : ~ In (gvindex g1) (vertices g1)) by (apply fresh_not_in; auto).
  assert (D : w <> gvindex g) by (intros ->; auto). assert (D1 : w <> gvindex g1) by (intros ->; apply F1; rewrite V1, in_app_iff; auto).
  assert (D2 : gvindex g <> gvindex g1) by (intros X; apply F1; rewrite V1, in_app_iff, <- X; simpl; auto).
  assert (P4 : forall u, phase g4 u = if Nat.eqb u w then qmod2 0%Qc else phase g2 u) by (intros u; apply (phase_set_phase g2 w 0%Qc u)).
  assert (T4 : tnum g4 = length (filter (nc g4) (vertices g ++ [gvindex g]))).
  { unfold tnum. change (vertices g4) with (vertices g2). rewrite V2, V1, filter_app, app_length. cbn [filter]. unfold nc at 2. rewrite P4, P2. destruct (Nat.eqb_spec (gvindex g1) w); [congruence|]. rewrite Nat.eqb_refl, qmod2_0. cbn. lia. }
  rewrite T4. replace (length (filter (nc g4) (vertices g ++ [gvindex g]))) with (tnum (set_phase w 0%Qc g1)).
  2:{ unfold tnum. change (vertices (set_phase w 0%Qc g1)) with (vertices g1). rewrite V1. f_equal. apply filter_ext_in. intros u Hu. unfold nc. rewrite P4, P2, phase_set_phase. destruct (Nat.eqb_spec u (gvindex g1)) as [->|]; auto. exfalso. apply F1. rewrite V1; auto. }
  apply (move_phase g _ (gvindex g) w); auto; unfold nc.
  - rewrite phase_set_phase, P1. destruct (Nat.eqb_spec (gvindex g) w); [congruence|]. rewrite Nat.eqb_refl. apply nc_mod.
  - rewrite phase_set_phase, Nat.eqb_refl, qmod2_0. reflexivity.
  - intros u U1 U2. rewrite phase_set_phase, P1. destruct (Nat.eqb_spec u w); [contradiction|]. destruct (Nat.eqb_spec u (gvindex g)); [contradiction|]. auto.
Qed.

(** ** The simplifiers *)
Definition mono {A} (I : graph -> Prop) (p : proc A) : Prop := forall g a g', I g -> run p g (Ok (a, g')) -> tnum g' <= tnum g.
Lemma mono_simp : forall Ch M (okc : graph -> Ch -> Prop) (mt : Ch -> graph -> res (list M * graph)) (rw : Ch -> list M -> graph -> res rwout) (I : graph -> Prop),
  (forall c g b g', I g -> okc g c -> simp_once (mt c) (rw c) g = Ok (b, g') -> I g' /\ tnum g' <= tnum g) -> mono I (simp okc mt rw).
Proof.
  intros Ch M okc mt rw I H g a g' HI R. refine (proj1 (simp_sound okc mt rw I (fun g g' => tnum g' <= tnum g) _ _ _ g a g' HI R)); auto.
  - intros; lia. - intros c h b h' Hh Oc E. destruct (H c h b h' Hh Oc E); auto.
Qed.
Lemma mono_bind : forall A B (I : graph -> Prop) (p : proc A) (k : A -> proc B) (M : A -> graph -> Prop), mono I p -> psound I p (fun _ a g' => M a g') -> (forall a, mono (M a) (k a)) -> mono I (pbind p k).
Proof.
  intros A B I p k M Hp Hm Hk g b g' HI [[e [_ E]]|[a [g1 [R1 R2]]]]; [discriminate|]. assert (X := Hp _ _ _ HI R1). assert (Y := Hk a _ _ _ (Hm _ _ _ HI R1) R2). lia.
Qed.
Lemma mono_ret : forall A (I : graph -> Prop) (a : A), mono I (pret a).
Proof. intros A I a g b g' _ E. injection E as <- <-. auto. Qed.
Lemma mono_loop : forall A (body : A -> proc (A * bool)) (I : A -> graph -> Prop), (forall a, mono (I a) (body a)) -> (forall a, psound (I a) (body a) (fun _ ab g' => snd ab = true -> I (fst ab) g')) -> forall a, mono (I a) (ploop body a).
Proof.
  intros A body I HM HS a g b g' HI R. refine (psound_loop _ body (fun g0 a g => (g0 = g0 /\ I a g) /\ tnum g <= tnum g0) (fun g0 _ g => tnum g <= tnum g0) _ _ a g b g' _ R); auto.
  - intros g0 a0 g1 a' g2 [[_ H1] H2] R1. assert (X := HM a0 _ _ _ H1 R1). split; [split; auto; exact (HS a0 _ _ _ H1 R1 eq_refl)|lia].
  - intros g0 a0 g1 a' g2 [[_ H1] H2] R1. assert (X := HM a0 _ _ _ H1 R1). lia.
Qed.
Lemma mono_weak : forall A (I I' : graph -> Prop) (p : proc A), (forall g, I' g -> I g) -> mono I p -> mono I' p.
Proof. intros A I I' p H M g a g' HI R. eapply M; eauto. Qed.
Ltac once_inv H := apply simp_once_inv in H; destruct H as [?ms [?g1 [?E H]]].
Lemma spider_mono1 : forall md g c b g', zinv g -> ok_edges md g c -> simp_once (fun g => Ok (match_spider_parallel c None g, g)) spider g = Ok (b, g') -> zinv g' /\ tnum g' <= tnum g.
Proof.
  intros md g c b g' Z Oc H. split. { destruct (spider_tonce md g c Z Oc) as [b' [g2 [E [K _]]]]. rewrite E in H. injection H as <- <-. exact K. }
  assert (ZX := zi_zx g Z). assert (W := zx_wf g ZX).
  assert (HC : forall e, In e c -> In e (edges g)) by (intros e He; exact (cand_ok_in _ _ _ _ _ Oc He)).
  assert (HO : forall m, In m (match_spider_parallel c None g) -> spider_ok g m) by (intros m Hm; apply match_spider_in in Hm; tauto).
  assert (HF : ForallOrdPairs (far g) (match_spider_parallel c None g)) by (apply match_spider_far; auto).
  apply simp_once_inv in H. destruct H as [ms [g1 [E H]]]. injection E as <- <-. destruct H as [[_ [_ ->]]|[_ [_ [o [E1 E2]]]]]; auto.
  destruct (spider_shape g _ ZX HO HF) as [o' [E1' S]]. rewrite E1 in E1'. injection E1' as <-.
  eapply Nat.le_trans; [apply apply_tnum; [apply S|exact E2]|]. eapply spider_tnumL; eauto. apply S.
Qed.
Lemma id_mono1 : forall md g c b g', zinv g -> ok_vertices md g c -> simp_once (fun g => Ok (match_ids_parallel c None g, g)) remove_ids g = Ok (b, g') -> zinv g' /\ tnum g' <= tnum g.
Proof.
  intros md g c b g' Z Oc H. split. { destruct (id_tonce md g c Z Oc) as [b' [g2 [E [K _]]]]. rewrite E in H. injection H as <- <-. exact K. }
  assert (ZX := zi_zx g Z). assert (W := zx_wf g ZX).
  apply simp_once_inv in H. destruct H as [ms [g1 [E H]]]. injection E as <- <-. destruct H as [[_ [_ ->]]|[_ [_ [o [E1 E2]]]]]; auto.
  assert (EO : rw_graph o = g) by (unfold remove_ids in E1; match type of E1 with context [fold_left ?f ?l ?i] => destruct (fold_left f l i) end; injection E1 as <-; reflexivity).
  eapply apply_les; [|idtac|exact E2]; rewrite EO; auto. apply les_nceq; auto; [apply wf_nd; auto|apply nceq_refl].
Qed.
Lemma lcomp_mono1 : forall md g c b g', zinv g -> ok_vertices md g c -> simp_once (fun g => Ok (match_lcomp_parallel c None g, g)) lcomp g = Ok (b, g') -> zinv g' /\ tnum g' <= tnum g.
Proof.
  intros md g c b g' Z Oc H. split. { destruct (lcomp_tonce md g c Z Oc) as [b' [g2 [E [[K _] _]]]]. rewrite E in H. injection H as <- <-. exact K. }
  assert (ZX := zi_zx g Z). assert (W := zx_wf g ZX).
  assert (HC : forall e, In e c -> In e (vertices g)) by (intros e He; exact (cand_ok_in _ _ _ _ _ Oc He)).
  assert (ND := cand_ok_nd _ _ _ _ Oc (wf_nd g W)).
  assert (HO : forall m, In m (match_lcomp_parallel c None g) -> lc_ok g m) by (intros m Hm; apply match_lcomp_in in Hm; tauto).
  assert (HF := match_lcomp_far g None c [] HC ND).
  apply simp_once_inv in H. destruct H as [ms [g1 [E H]]]. injection E as <- <-. destruct H as [[_ [_ ->]]|[_ [_ [o [E1 E2]]]]]; auto.
  destruct (lcomp_shape g _ ZX HO HF) as [o' [E1' S]]. rewrite E1 in E1'. injection E1' as <-.
  eapply apply_les; [apply S| |exact E2]. apply les_nceq; [apply wf_nd; auto|apply (sh_fr _ _ _ S)|]. eapply lcomp_nceq; [|exact E1].
  intros [v vn] Hm. apply HO in Hm. destruct Hm as [_ [_ [_ [[P|P] _]]]]; cbn [fst]; unfold nc; rewrite P; reflexivity.
Qed.
Lemma pivot_matches_mono : forall so g ms o g', so_ok so -> zxok g -> (forall m, In m ms -> pv_ok g m) -> ForallOrdPairs (pv_far g) ms -> pivot so ms g = Ok o -> apply_rw o = Ok g' -> tnum g' <= tnum g.
Proof.
  intros so g ms o g' SO ZX HO HF E1 E2. destruct (pivot_shape so g _ SO ZX HO HF) as [o' [E1' [S _]]]. rewrite E1 in E1'. injection E1' as <-.
  eapply apply_les; [apply S| |exact E2]. apply les_nceq; [apply wf_nd, ZX|apply (sh_fr _ _ _ S)|]. eapply pivot_nceq; [|exact E1].
  intros [[v0 v1] [b0 b1]] Hm. apply HO in Hm. destruct Hm as [_ [_ [_ [_ [P0 [P1 _]]]]]]. cbn [fst snd]. split; apply pauli_clifford; auto.
Qed.
Lemma pivot_mono1 : forall md g c b g', zinv g -> ok_edges_so md g c -> simp_once (fun g => Ok (match_pivot_parallel (fst c) None g, g)) (pivot (snd c)) g = Ok (b, g') -> zinv g' /\ tnum g' <= tnum g.
Proof.
  intros md g c b g' Z Oc H. split. { destruct (pivot_tonce md g c Z Oc) as [b' [g2 [E [K _]]]]. rewrite E in H. injection H as <- <-. exact K. }
  destruct c as [c so]. destruct Oc as [Oc SO]. cbn [fst snd] in *. assert (ZX := zi_zx g Z). assert (W := zx_wf g ZX). assert (NL := zx_noloop g ZX).
  assert (HC : forall e, In e c -> In e (edges g)) by (intros e He; exact (cand_ok_in _ _ _ _ _ Oc He)).
  assert (HO : forall m, In m (match_pivot_parallel c None g) -> pv_ok g m) by (intros m Hm; apply match_pivot_in in Hm; tauto).
  assert (HF : ForallOrdPairs (pv_far g) (match_pivot_parallel c None g)) by (apply match_pivot_far; auto).
  apply simp_once_inv in H. destruct H as [ms [g1 [E H]]]. injection E as <- <-. destruct H as [[_ [_ ->]]|[_ [_ [o [E1 E2]]]]]; auto.
  eapply pivot_matches_mono; eauto.
Qed.
Lemma grow_mono1 : forall so g mt ms g2 b g', so_ok so -> zg g -> mt g = Ok (ms, g2) -> grow_res g g2 ms -> tnum g2 <= tnum g -> simp_once mt (pivot so) g = Ok (b, g') -> zg g' /\ tnum g' <= tnum g.
Proof.
  intros so g mt ms g2 b g' SO ZG E G T H. split. { destruct (once_grow so g mt ms g2 SO ZG E G) as [b' [g3 [E' ZG']]]. rewrite E' in H. injection H as <- <-. exact ZG'. }
  apply simp_once_inv in H. destruct H as [ms' [g1 [E' H]]]. rewrite E in E'. injection E' as <- <-. destruct H as [[_ [_ ->]]|[_ [_ [o [E1 E2]]]]]; auto.
  eapply Nat.le_trans; [|exact T]. eapply pivot_matches_mono; eauto; [apply (zi_zx _ (gw_z _ _ _ G))|apply G|apply G].
Qed.
Theorem spider_simp_mono : forall md, mono zinv (spider_simp md).
Proof. intros md. apply mono_simp. intros c g b g' Z Oc E. exact (spider_mono1 md g c b g' Z Oc E). Qed.
Theorem id_simp_mono : forall md, mono zinv (id_simp md).
Proof. intros md. apply mono_simp. intros c g b g' Z Oc E. exact (id_mono1 md g c b g' Z Oc E). Qed.
Theorem lcomp_simp_mono : forall md, mono zinv (lcomp_simp md).
Proof. intros md. apply mono_simp. intros c g b g' Z Oc E. exact (lcomp_mono1 md g c b g' Z Oc E). Qed.
Theorem pivot_simp_mono : forall md, mono zinv (pivot_simp md).
Proof. intros md. apply mono_simp. intros c g b g' Z Oc E. exact (pivot_mono1 md g c b g' Z Oc E). Qed.
Theorem pivot_gadget_simp_mono : forall md, mono zg (pivot_gadget_simp md).
Proof.
  intros md. apply mono_simp. intros [c so] g b g' [Z GL] [Oc SO] E. cbn [fst snd] in *.
  destruct (match_pivot_gadget_total g c None Z GL) as [ms [g2 [E2 G]]]; [intros e He; exact (cand_ok_in _ _ _ _ _ Oc He)|].
  eapply grow_mono1; eauto; [split; auto|]. assert (W := zx_wf g (zi_zx g Z)). unfold match_pivot_gadget in E2. inv_bind E2. destruct a as [[ms1 el1] g1]. inv_bind E2. injection E2 as _ <-.
  destruct (pg_loop_tnum _ _ _ _ _ _ _ _ _ W E0) as [W1 T1]. destruct (add_edges_tnum _ _ _ _ W1 E1) as [_ ->]. auto.
Qed.
Theorem pivot_boundary_simp_mono : forall md, mono zg (pivot_boundary_simp md).
Proof.
  intros md. apply mono_simp. intros [c so] g b g' [Z GL] [Oc SO] E. cbn [fst snd] in *.
  destruct (match_pivot_boundary_total g c None Z GL) as [ms [g2 [E2 G]]]; [intros e He; exact (cand_ok_in _ _ _ _ _ Oc He)|exact (cand_ok_nd _ _ _ _ Oc (wf_nd g (zx_wf g (zi_zx g Z))))|].
  eapply grow_mono1; eauto; [split; auto|]. assert (W := zx_wf g (zi_zx g Z)). unfold match_pivot_boundary in E2. inv_bind E2. destruct a as [[ms1 el1] g1]. inv_bind E2. injection E2 as _ <-.
  destruct (pb_loop_tnum _ _ _ _ _ _ _ _ _ _ W E0) as [W1 T1]. destruct (add_edges_tnum _ _ _ _ W1 E1) as [_ ->]. auto.
Qed.
Theorem gadget_simp_mono : forall md, mono zgp (gadget_simp md).
Proof.
  intros md. apply mono_simp. intros c g b g' Z Oc E. split. { destruct (gadget_tonce md c g Z Oc) as [b' [g2 [E' [K _]]]]. assert (X : Ok (b', g2) = Ok (b, g')) by (rewrite <- E'; exact E). injection X as <- <-. exact K. }
  assert (W := zx_wf g (zi_zx g (proj1 Z))). apply simp_once_inv in E. destruct E as [ms [g1 [E H]]]. destruct H as [[-> [_ ->]]|[_ [_ [o [E1 E2]]]]].
  - destruct (gadget_les g c [] g1 (mkRw g1 [] [] [] false) W E eq_refl) as [_ L]. apply les_tnum in L. exact L.
  - destruct (gadget_les g c ms g1 o W E E1) as [W1 L]. eapply apply_les; eauto.
Qed.
Theorem supp_simp_mono : mono sdom supplementarity_simp.
Proof.
  apply mono_simp. intros c g b g' Z Oc E. split. { destruct (supp_once c g Z Oc) as [b' [g2 [E' [K _]]]]. rewrite E' in E. injection E as <- <-. exact K. }
  destruct c as [c so]. destruct Oc as [Oc SO]. cbn [fst snd] in *. destruct Z as [Z [GL NI]]. assert (ZX := zi_zx _ Z). assert (W := zx_wf _ ZX). 
  destruct (match_supp_ok so g SO W (zx_noloop _ ZX) NI c [] [] [] []) as [H1 H2].
  { exact (cand_ok_nd _ _ _ _ Oc (wf_nd g W)). } { intros v Hv; exact (cand_ok_in _ _ _ _ _ Oc Hv). } { intros k l w []. }
  { constructor; [intros u []|intros u t []|intros u []|intros u []]. }
  fold (match_supplementarity so c g) in H1, H2.
  apply simp_once_inv in E. destruct E as [ms [g1 [E H]]]. injection E as <- <-. destruct H as [[_ [_ ->]]|[_ [_ [o [E1 E2]]]]]; auto.
  destruct (supp_fold (match_supplementarity so c g) g [] g [] Z GL) as [g1 [E [S [ND V]]]]; auto.
  { apply sst_refl; auto. } { intros m Hm. split; [apply H1; auto|]. unfold sfits. simpl. auto. } { constructor. }
  assert (EO : rw_graph o = g1) by (unfold apply_supplementarity in E1; rewrite E in E1; injection E1 as <-; reflexivity).
  assert (N := supp_nceq _ _ _ E1). eapply apply_les; [rewrite EO; apply (ss_wf _ _ _ S)| |exact E2]. apply les_nceq; auto; [apply wf_nd; auto|]. rewrite EO. apply (sst_vs _ _ _ S).
Qed.
Theorem to_gh_mono : mono zinv p_to_gh.
Proof.
  intros g a g' Z R. simpl in R. destruct (to_gh_sound g (zi_zx g Z)) as [g1 [E [Z1 [_ [NX [VS PH]]]]]]. rewrite E in R. cbn [bind] in R. injection R as _ ->. rewrite (tnum_nceq g g1); auto. apply nceq_ph; auto.
Qed.
Lemma tot_ps : forall A (I : graph -> Prop) (p : proc A) (J : graph -> A -> graph -> Prop), tot I p J -> psound I p J.
Proof. intros A I p J T g a g' HI R. destruct (T g _ HI R) as [a' [g2 [E H]]]. injection E as <- <-. exact H. Qed.
Lemma kb_ps : forall A (p : proc A), tot zinv p (fun g _ g' => keepb g g') -> psound zinv p (fun _ _ g' => zinv g').
Proof. intros A p T g a g' HI R. exact (proj1 (tot_ps _ _ _ _ T g a g' HI R)). Qed.
Ltac kb := apply kb_ps; first [apply id_simp_tot|apply spider_simp_tot|apply pivot_simp_tot|apply lcomp_simp_tot].
Lemma icl_body_mono : forall md i, mono zinv (icl_body md i).
Proof.
  intros md i. unfold icl_body. eapply mono_bind with (M := fun _ => zinv); [apply id_simp_mono|kb|intros i1]. eapply mono_bind with (M := fun _ => zinv); [apply spider_simp_mono|kb|intros i2].
  eapply mono_bind with (M := fun _ => zinv); [apply pivot_simp_mono|kb|intros i3]. eapply mono_bind with (M := fun _ => zinv); [apply lcomp_simp_mono|kb|intros i4].
  destruct (Nat.eqb _ 0); apply mono_ret.
Qed.
Theorem interior_clifford_mono : forall md, mono zinv (interior_clifford_simp md).
Proof.
  intros md. unfold interior_clifford_simp. eapply mono_bind with (M := fun _ => zinv); [apply spider_simp_mono|kb|intros i0].
  eapply mono_bind with (M := fun _ => zinvx); [apply to_gh_mono|intros g a g' X Y; destruct (to_gh_tot g _ X Y) as [? [? [E K]]]; injection E as <- <-; exact K|intros u].
  apply (mono_loop _ (icl_body md) (fun _ => zinvx)).
  - intros a. eapply mono_weak; [|apply icl_body_mono]. intros g [Z _]. exact Z.
  - intros a g b g' X Y. destruct (icl_body_tot md a g _ X Y) as [? [? [E K]]]. injection E as <- <-. auto.
Qed.
Lemma totr_ps : forall A (I : graph -> Prop) (p : proc A) (J : A -> graph -> Prop), totr I p J -> psound I p (fun _ a g' => J a g').
Proof. intros A I p J T g a g' HI R. destruct (T g _ HI R) as [a' [g2 [E [H _]]]]. injection E as <- <-. exact H. Qed.
Theorem clifford_simp_mono : mono zinv (clifford_simp AllC).
Proof.
  unfold clifford_simp. 
  assert (B : forall i, mono zinv (do k <- interior_clifford_simp AllC;; do i2 <- pivot_boundary_simp AllC;; pret (i + k, negb (i2 =? 0)))).
  { intros i. eapply mono_bind with (M := fun _ => zg); [apply interior_clifford_mono| |intros k].
    - intros g a g' Z R. destruct (interior_clifford_totr AllC g _ Z R) as [? [? [E [[K1 K2] _]]]]. injection E as <- <-. split; auto. apply K2; auto.
    - eapply mono_bind with (M := fun _ _ => True); [apply pivot_boundary_simp_mono|intros ? ? ? ? ?; exact I|intros; apply mono_ret]. }
  apply (mono_loop _ _ (fun _ => zinv)); auto. intros i g [i' b] g' Z R _. cbn [fst].
  destruct R as [[e [_ E]]|[k [g1 [R1 R2]]]]; [discriminate|]. destruct (interior_clifford_totr AllC g _ Z R1) as [? [? [E [[K1 K2] _]]]]. injection E as <- <-.
  destruct R2 as [[e [_ E]]|[i2 [g2 [R2 R3]]]]; [discriminate|]. injection R3 as _ _ <-. destruct (pivot_boundary_simp_totr AllC g1 _ (conj K1 (proj1 (K2 eq_refl))) R2) as [n [g3 [E [ZG _]]]]. injection E as _ <-. apply ZG.
Qed.

Theorem full_reduce_mono : mono zinv (full_reduce AllC).
Proof.
  unfold full_reduce. eapply mono_bind with (M := fun _ => zinv).
  { intros g a g' Z R. simpl in R. destruct (existsb _ _); [discriminate|]. injection R as _ ->. auto. }
  { intros g a g' Z R. simpl in R. destruct (existsb _ _); [discriminate|]. injection R as _ ->. auto. }
  intros u0. assert (IC : psound zinv (interior_clifford_simp AllC) (fun _ _ g' => zg g')).
  { intros g a g' Z R. destruct (interior_clifford_totr AllC g _ Z R) as [? [? [E [[K1 K2] _]]]]. injection E as <- <-. split; auto. apply K2; auto. }
  assert (PG := totr_ps _ _ _ _ (pivot_gadget_simp_totr AllC)).
  eapply mono_bind with (M := fun _ => zg); [apply interior_clifford_mono|exact IC|intros i0]. eapply mono_bind with (M := fun _ => zg); [apply pivot_gadget_simp_mono|exact PG|intros j0].
  apply (mono_loop _ _ (fun _ => zg)).
  - intros _. eapply mono_bind with (M := fun _ => zgp); [eapply mono_weak; [|apply clifford_simp_mono]; intros g [Z _]; exact Z|intros g a g' [Z _] R; exact (totr_ps _ _ _ _ clifford_simp_totr g a g' Z R)|intros k0].
    eapply mono_bind with (M := fun _ => zgp); [apply gadget_simp_mono|exact (totr_ps _ _ _ _ (gadget_simp_totr AllC))|intros i].
    eapply mono_bind with (M := fun _ => zg); [eapply mono_weak; [|apply interior_clifford_mono]; intros g [Z _]; exact Z|intros g a g' [Z _] R; exact (IC g a g' Z R)|intros l].
    eapply mono_bind with (M := fun _ _ => True); [apply pivot_gadget_simp_mono|intros ? ? ? ? ?; exact I|intros; apply mono_ret].
  - intros u g [u' b] g' ZG R _. cbn [fst].
    destruct R as [[e [_ E]]|[k [g1 [R1 R2]]]]; [discriminate|]. assert (Z1 := totr_ps _ _ _ _ clifford_simp_totr g _ _ (proj1 ZG) R1).
    destruct R2 as [[e [_ E]]|[i [g2 [R2 R3]]]]; [discriminate|]. assert (Z2 := totr_ps _ _ _ _ (gadget_simp_totr AllC) g1 _ _ Z1 R2).
    destruct R3 as [[e [_ E]]|[l [g3 [R3 R4]]]]; [discriminate|]. assert (Z3 := IC g2 _ _ (proj1 Z2) R3).
    destruct R4 as [[e [_ E]]|[j [g4 [R4 R5]]]]; [discriminate|]. assert (Z4 := PG g3 _ _ Z3 R4). injection R5 as _ _ <-. exact Z4.
Qed.

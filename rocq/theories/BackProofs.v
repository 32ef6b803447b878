(** graph_to_circuit on diagrams that look like circuits: the circuit it gives has the
    diagram's linear map. *)
From Coq Require Import Reals ZArith QArith Qcanon List Bool Arith Lia Permutation Sorted FunctionalExtensionality.
From Verif Require Import CNum Base ScalarModel ScalarProofs GraphModel GraphSem SumLemmas GraphProofs GraphOps RulesModel RuleLemmas InvProofs BfixProofs TotalProofs
  GateModel CircSpec GateProofs GateDecomp GateAdj GateMask AmpProofs CircGraphModel CircGraphFacts GraphAlgProofs SuppProofs TensorModel TensorPos ExtractClean GflowModel GflowProofs VerifyProofs ComposeFacts BackModel CircGraphProofs BackSem GraphModel.
Import ListNotations.
Open Scope C_scope.

(** ** Diagrams that look like circuits *)
Record circuit_like (n : nat) (g : graph) : Prop := mkclike {
  cl_z : zinv g;
  cl_in : length (ginputs g) = n;
  cl_out : length (goutputs g) = n;
  cl_nd : NoDup (ginputs g ++ goutputs g);
  cl_iq : forall i, (i < n)%nat -> dget (nth i (ginputs g) 0%nat) (gqindex g) = Some (crd i);
  cl_oq : forall i, (i < n)%nat -> dget (nth i (goutputs g) 0%nat) (gqindex g) = Some (crd i);
  cl_rows : forall u v, In u (ginputs g) -> In v (vertices g) -> ~ In v (ginputs g) -> (row g u < row g v)%Qc;
  cl_ii : forall u v, In u (ginputs g) -> In v (ginputs g) -> edge_type g u v = None;
  cl_one : forall u v w, edge_type g u v <> None -> edge_type g u w <> None -> (row g u < row g v)%Qc -> (row g u < row g w)%Qc -> v = w;
  cl_srt : StronglySorted lt (vertices g) }.

Lemma some_crd : forall a b, Some (crd a) = Some (crd b) -> a = b.
Proof. intros a b H. apply crd_inj. congruence. Qed.
(** ** The order of the vertices *)
Definition border (g : graph) : list nat := concat (map snd (row_items g)).
Lemma fold_items : forall split g (L : list (Qc * list nat)) gs, (forall e v, In e L -> In v (snd e) -> row g v = fst e) ->
  foldM (fun gs e => foldM (vertex_gates split g (fst e)) (snd e) gs) L gs = foldM (fun gs v => vertex_gates split g (row g v) gs v) (concat (map snd L)) gs.
Proof.
  intros split g. induction L as [|[r l] L IH]; intros gs H; auto. cbn [map concat snd fst foldM]. rewrite foldM_app.
  assert (E : forall s, foldM (vertex_gates split g r) l s = foldM (fun gs v => vertex_gates split g (row g v) gs v) l s).
  { assert (Hl : forall v, In v l -> row g v = r) by (intros v Hv; apply (H (r, l) v (or_introl eq_refl) Hv)). clear -Hl. induction l as [|v l IHl]; intros s; auto. cbn [foldM]. rewrite (Hl v) by (left; auto).
    destruct (vertex_gates split g r s v); cbn [bind]; auto. apply IHl. intros; apply Hl; right; auto. }
  rewrite <- E. destruct (foldM (vertex_gates split g r) l gs); cbn [bind]; auto. apply IH. intros e v He Hv. apply (H e v); auto. right; auto.
Qed.
Lemma not_input_iff : forall g v, not_input g v = true <-> ~ In v (ginputs g).
Proof. intros. unfold not_input. rewrite negb_true_iff. split; intros H. - intros I. apply memb_in in I. congruence. - destruct (memb v (ginputs g)) eqn:E; auto. apply memb_in in E. contradiction. Qed.
Lemma border_in : forall g v, In v (border g) <-> In v (vertices g) /\ ~ In v (ginputs g).
Proof.
  intros g v. unfold border, row_items. rewrite map_map, in_concat. cbn [snd]. rewrite <- not_input_iff, <- filter_In. split.
  - intros [l [H1 H2]]. apply in_map_iff in H1. destruct H1 as [r [<- _]]. apply filter_In in H2. tauto.
  - intros H. exists (filter (has_row g (row g v)) (filter (not_input g) (vertices g))). split.
    + apply in_map_iff. exists (row g v). split; auto. apply sorted_in, nodup_In, in_map. auto.
    + apply filter_In. split; auto. apply has_row_iff. reflexivity.
Qed.
Lemma ss_filter : forall A (R : A -> A -> Prop) f l, StronglySorted R l -> StronglySorted R (filter f l).
Proof.
  intros A R f l S. induction S as [|a l S IH F]; cbn; [constructor|]. destruct (f a); auto. constructor; auto.
  rewrite Forall_forall in *. intros b Hb. apply filter_In in Hb. apply F; tauto.
Qed.
Lemma border_ss : forall g, StronglySorted lt (vertices g) -> StronglySorted (fun a b => before g a b = true) (border g).
Proof.
  intros g N. unfold border, row_items. rewrite map_map. cbn [snd].
  assert (S := qltb_strict _ (NoDup_nodup Qc_eq_dec (map (row g) (filter (not_input g) (vertices g))))).
  induction S as [|r s S IH F]; [constructor|]. cbn [map concat]. apply ss_app; auto.
  - eapply ss_impl; [apply ss_filter, ss_filter; exact N|]. intros a b Ha Hb L. apply filter_In in Ha, Hb. destruct Ha as [_ Ha], Hb as [_ Hb]. apply has_row_iff in Ha, Hb.
    unfold before. rewrite Ha, Hb, (proj2 (qeqb_eq r r)), (proj2 (Nat.ltb_lt a b)) by auto. rewrite orb_true_r. reflexivity.
  - intros a b Ha Hb. apply filter_In in Ha. destruct Ha as [_ Ha]. apply has_row_iff in Ha. apply in_concat in Hb. destruct Hb as [l [H1 H2]]. apply in_map_iff in H1. destruct H1 as [r' [<- Hr]].
    apply filter_In in H2. destruct H2 as [_ H2]. apply has_row_iff in H2. rewrite Forall_forall in F. unfold before. rewrite Ha, H2, (F _ Hr). reflexivity.
Qed.
Lemma before_row : forall g a b, before g a b = true -> (row g a < row g b)%Qc \/ (row g a = row g b /\ (a < b)%nat).
Proof. intros g a b H. unfold before in H. apply orb_true_iff in H. destruct H as [H|H]; [left; apply qltb_lt; auto|]. apply andb_true_iff in H. destruct H as [H1 H2]. right. split; [apply qeqb_eq; auto|apply Nat.ltb_lt; auto]. Qed.
Lemma border_nodup : forall g, StronglySorted lt (vertices g) -> NoDup (border g).
Proof.
  intros g N. assert (S := border_ss g N). induction S as [|a l S IH F]; constructor; auto. intros I. rewrite Forall_forall in F. apply F in I. rewrite before_irr in I. discriminate.
Qed.
Lemma row_get_ok : forall g w, rows_ok g -> In w (vertices g) -> row_get g w = Ok (row g w).
Proof. intros g w H I. unfold row_get, row. specialize (H w I). destruct (dget w (grindex g)); [reflexivity|congruence]. Qed.

(** ** The invariant *)
Record binv (n : nat) (g : graph) (D : list nat) (e : nat -> nat) (gs : list gate) : Prop := mkbinv {
  b_e : forall q, (q < n)%nat -> In (e q) (ginputs g ++ D) /\ dget (e q) (gqindex g) = Some (crd q) /\
        forall w, In w (ginputs g ++ D) -> edge_type g (e q) w <> None -> ~ (row g (e q) < row g w)%Qc;
  b_u : forall u q, In u (ginputs g ++ D) -> dget u (gqindex g) = Some (crd q) ->
        (forall w, In w (ginputs g ++ D) -> edge_type g u w <> None -> ~ (row g u < row g w)%Qc) -> u = e q;
  b_q : forall u, In u (ginputs g ++ D) -> exists q, (q < n)%nat /\ dget u (gqindex g) = Some (crd q);
  b_p : forall u, In u D -> exists w, edge_type g u w <> None /\ (row g w < row g u)%Qc;
  b_g : forall k, In k gs -> gate_in n k;
  b_s : forall b, part_amp n g (ginputs g) D e b = fun z => to_number (gscalar g) * sq2p (- Z.of_nat (two_count gs)) *
        hads (fun q => isX g (e q)) (seq 0 n) (cden gs (basis n (fun q => b (nth q (ginputs g) 0%nat)))) z }.

Lemma binv_start : forall n g, circuit_like n g -> binv n g [] (fun q => nth q (ginputs g) 0%nat) [].
Proof.
  intros n g H. assert (L := cl_in n g H). assert (NI : NoDup (ginputs g)) by (apply (NoDup_app_l _ _ (cl_nd n g H))).
  assert (LQ : forall u, In u (ginputs g) -> exists q, (q < n)%nat /\ nth q (ginputs g) 0%nat = u).
  { intros u Hu. apply (In_nth _ _ 0%nat) in Hu. rewrite L in Hu. auto. }
  constructor.
  - intros q Hq. rewrite app_nil_r. assert (I : In (nth q (ginputs g) 0%nat) (ginputs g)) by (apply nth_In; lia). split; auto. split; [apply (cl_iq n g H); auto|].
    intros w Hw E. exfalso. apply E, (cl_ii n g H); auto.
  - intros u q Hu Q _. rewrite app_nil_r in Hu. destruct (LQ u Hu) as [q' [Hq E]]. rewrite <- E in Q. rewrite (cl_iq n g H) in Q by auto. apply some_crd in Q. subst; auto.
  - intros u Hu. rewrite app_nil_r in Hu. destruct (LQ u Hu) as [q' [Hq E]]. exists q'. split; auto. rewrite <- E. apply (cl_iq n g H); auto.
  - intros u [].
  - intros k [].
  - intros b. apply functional_extensionality. intros z. unfold part_amp. cbn [sumv]. rewrite app_nil_r. change (- Z.of_nat (two_count []))%Z with 0%Z. rewrite sq2p_0.
    assert (IB : forall v, In v (ginputs g) -> isB g v = true) by (intros v Hv; apply (zx_io g (zi_zx g (cl_z n g H))); auto).
    rewrite hads_none.
    2:{ intros q Hq. apply in_seq in Hq. assert (X := IB _ (nth_In (ginputs g) 0%nat (n := q) ltac:(lia))). unfold isX. unfold isB in X. destruct (vty g _); try discriminate X; reflexivity. }
    unfold cden. cbn [fold_left]. unfold basis, tails. transitivity (to_number (gscalar g) * C1 * cprod (fun q => dlt (b (nth q (ginputs g) 0%nat)) (z q)) (seq 0 n)); [|ring]. f_equal.
    unfold integL. assert (E1 : cprod (fun v => pw g v (b v)) (ginputs g) = C1).
    { assert (X : cprod (fun v => pw g v (b v)) (ginputs g) = cprod (fun _ => C1) (ginputs g)) by (apply cprod_ext; intros v Hv; unfold pw; rewrite IB; auto). rewrite X. clear. induction (ginputs g); cbn [cprod]; auto. rewrite IHl. ring. }
    rewrite E1, pprod_1; [ring|]. intros u v Hu Hv. apply ew_none, (cl_ii n g H); auto.
Qed.

Lemma op1_smul : forall (K : C) m q s, op1 m q (fun z => K * s z) = fun z => K * op1 m q s z.
Proof. intros. apply functional_extensionality. intros z. unfold op1. ring. Qed.
Lemma pw_mP : forall g v, meq (fun i j => if Bool.eqb i j then pw g v i else C0) (mP (if isB g v then 0%Qc else phase g v)).
Proof. intros g v i j. unfold pw, mP, mk2. destruct (isB g v), i, j; cbn [Bool.eqb ephase]; rewrite ?cexp_0; reflexivity. Qed.

Lemma binv_step : forall split n g D v E e gs gs', circuit_like n g -> border g = D ++ v :: E -> binv n g D e gs ->
  vertex_gates split g (row g v) gs v = Ok gs' -> exists e', binv n g (D ++ [v]) e' gs'.
Proof.
  intros split n g D v E e gs gs' H O B R.
  assert (Z := cl_z n g H). assert (ZX := zi_zx g Z). assert (W := zx_wf g ZX).
  assert (SS := border_ss g (cl_srt n g H)). assert (ND := border_nodup g (cl_srt n g H)). rewrite O in SS, ND.
  destruct (ss_mid _ _ _ _ _ SS) as [BD _].
  assert (BI : forall u, In u (D ++ v :: E) -> In u (vertices g) /\ ~ In u (ginputs g)) by (intros u Hu; apply border_in; rewrite O; auto).
  assert (Hv : In v (vertices g) /\ ~ In v (ginputs g)) by (apply BI, in_elt). destruct Hv as [Vv Iv].
  assert (ID : forall u, In u (ginputs g ++ D) -> In u (vertices g)).
  { intros u Hu. apply in_app_or in Hu. destruct Hu as [Hu|Hu]; [apply (zx_io g ZX); auto|apply BI, in_or_app; auto]. }
  assert (RW : forall u, In u (ginputs g ++ D) -> (row g u < row g v)%Qc \/ (In u D /\ row g u = row g v /\ (u < v)%nat)).
  { intros u Hu. apply in_app_or in Hu. destruct Hu as [Hu|Hu]; [left; apply (cl_rows n g H); auto|]. destruct (before_row g u v (BD u Hu)) as [X|[X Y]]; auto. }
  assert (RLE : forall u, In u (ginputs g ++ D) -> ~ (row g v < row g u)%Qc).
  { intros u Hu. destruct (RW u Hu) as [X|[_ [X _]]]; [intros Y; eapply Qclt_not_le; [exact X|apply Qclt_le_weak; auto]|rewrite X; intros Y; apply Qclt_not_eq in Y; auto]. }
  assert (Nv : ~ In v (ginputs g ++ D)).
  { intros X. apply in_app_or in X. destruct X as [X|X]; auto. apply NoDup_remove_2 in ND. apply ND, in_or_app. auto. }
  unfold vertex_gates in R. apply bind_ok in R. destruct R as [qv [R1 R]]. apply bind_ok in R. destruct R as [p [R2 R]]. apply bind_ok in R. destruct R as [t [R3 R]].
  apply of_opt_some in R1, R2, R3.
  assert (Tv : vty g v = t) by (unfold vty; rewrite R3; auto). assert (Pv : phase g v = p) by (unfold phase; rewrite R2; auto).
  rewrite neighbors_r_ok in R by auto. cbn [bind] in R.
  assert (NV : forall w, In w (neighbors g v) -> In w (vertices g)). { intros w Hw. apply neighbors_spec in Hw. destruct (edge_type g v w) eqn:X; [|congruence]. eapply edge_in_r; eauto. }
  rewrite (filterM_ok _ _ (fun w => qltb (row g w) (row g v))) in R by (intros w Hw; rewrite row_get_ok; auto; apply Z). cbn [bind] in R.
  destruct (filter (fun w => qltb (row g w) (row g v)) (neighbors g v)) as [|nn [|n2 rest]] eqn:PV; try discriminate R.
  assert (PR : forall w, edge_type g v w <> None -> (row g w < row g v)%Qc -> w = nn).
  { intros w Hw L. assert (X : In w (filter (fun w => qltb (row g w) (row g v)) (neighbors g v))) by (apply filter_In; split; [apply neighbors_spec; auto|apply qltb_lt; auto]). rewrite PV in X. destruct X as [X|[]]; auto. }
  assert (PN : edge_type g v nn <> None /\ (row g nn < row g v)%Qc).
  { assert (X : In nn (filter (fun w => qltb (row g w) (row g v)) (neighbors g v))) by (rewrite PV; left; auto). apply filter_In in X. destruct X as [X1 X2]. split; [apply neighbors_spec; auto|apply qltb_lt; auto]. }
  destruct PN as [EN RN].
  apply bind_ok in R. destruct R as [qn [R4 R]]. apply of_opt_some in R4. destruct (qeqb qn qv) eqn:EQ; [|discriminate R]. apply qeqb_eq in EQ. subst qn. cbn [negb] in R.
  (* the neighbour before v *)
  assert (Vn : In nn (vertices g)) by (apply NV, neighbors_spec; auto).
  assert (In_nn : In nn (ginputs g ++ D)).
  { destruct (in_dec Nat.eq_dec nn (ginputs g)) as [X|X]; [apply in_or_app; auto|]. assert (Y : In nn (border g)) by (apply border_in; auto). rewrite O in Y. apply in_app_or in Y. destruct Y as [Y|[Y|Y]].
    - apply in_or_app; auto.
    - subst. exfalso. eapply Qclt_not_eq; eauto.
    - exfalso. destruct (ss_mid _ _ _ _ _ SS) as [_ Q]. specialize (Q _ Y). apply before_row in Q. destruct Q as [Q|[Q _]]; [eapply Qclt_not_le; [exact RN|apply Qclt_le_weak; auto]|rewrite Q in RN; eapply Qclt_not_eq; eauto]. }
  destruct (b_q n g D e gs B nn In_nn) as [q [Hq Qn]]. rewrite R4 in Qn. assert (qv = crd q) by congruence. subst qv. clear Qn. rewrite qnat_crd in R. cbn [bind] in R.
  assert (ENV : edge_type g nn v <> None) by (rewrite (wf_sym g W); auto).
  assert (NE : nn = e q).
  { apply (b_u n g D e gs B); auto. intros w Hw Ew L. assert (w = v) by (apply (cl_one n g H nn w v); auto). subst; contradiction. }
  destruct (edge_type g nn v) as [et|] eqn:ET; [|congruence].
  (* side vertices *)
  set (side := filter (fun w => qeqb (row g w) (row g v) && Nat.ltb w v) (neighbors g v)) in *.
  assert (SI : forall u, In u side -> In u D /\ edge_type g v u <> None /\ row g u = row g v).
  { intros u Hu. apply filter_In in Hu. destruct Hu as [H1 H2]. apply andb_true_iff in H2. destruct H2 as [H2 H3]. apply qeqb_eq in H2. apply Nat.ltb_lt in H3.
    assert (Vu := NV u H1). split; [|split; [apply neighbors_spec; auto|auto]].
    assert (IU : ~ In u (ginputs g)). { intros X. assert (Y := cl_rows n g H u v X Vv Iv). rewrite H2 in Y. eapply Qclt_not_eq; eauto. }
    assert (Y : In u (border g)) by (apply border_in; auto). rewrite O in Y. apply in_app_or in Y. destruct Y as [Y|[Y|Y]]; auto; [subst; lia|].
    exfalso. destruct (ss_mid _ _ _ _ _ SS) as [_ Q]. specialize (Q _ Y). apply before_row in Q. destruct Q as [Q|[_ Q]]; [rewrite H2 in Q; eapply Qclt_not_eq; eauto|lia]. }
  set (Q := fun u => match dget u (gqindex g) with Some x => match qnat x with Ok k => k | Err _ => 0%nat end | None => 0%nat end).
  assert (SQ : forall u, In u side -> (Q u < n)%nat /\ Q u <> q /\ e (Q u) = u /\ dget u (gqindex g) = Some (crd (Q u))).
  { intros u Hu. destruct (SI u Hu) as [H1 [H2 H3]]. assert (IU : In u (ginputs g ++ D)) by (apply in_or_app; auto). destruct (b_q n g D e gs B u IU) as [k [Hk Uk]].
    assert (QU : Q u = k) by (unfold Q; rewrite Uk, qnat_crd; auto). rewrite QU.
    assert (EU : u = e k). { apply (b_u n g D e gs B); auto. intros w Hw Ew L. rewrite H3 in L. apply (RLE w); auto. }
    split; auto. split; [|split; auto]. intros ->. rewrite <- NE in EU. subst u. rewrite H3 in RN. eapply Qclt_not_eq; eauto. }
  assert (ST : forall u, In u side -> vty g u = ZSP \/ vty g u = XSP).
  { intros u Hu. destruct (SI u Hu) as [H1 [H2 H3]]. assert (Vu : In u (vertices g)) by (apply ID, in_or_app; auto). assert (HB := zx_zx g ZX u Vu). destruct (vty g u) eqn:TU; auto; [|congruence]. exfalso.
    destruct (zi_deg g Z u Vu TU) as [x Hx]. destruct (b_p n g D e gs B u H1) as [w [Ew Lw]]. apply Hx in Ew. assert (Ev : v = x) by (apply Hx; rewrite (wf_sym g W); auto). subst w x. rewrite H3 in Lw. eapply Qclt_not_eq; eauto. }
  (* the invariant without the last part *)
  assert (PART : forall gs2, (forall k, In k gs2 -> gate_in n k) ->
    (forall b, part_amp n g (ginputs g) (D ++ [v]) (eset e q v) b = fun z => to_number (gscalar g) * sq2p (- Z.of_nat (two_count gs2)) *
        hads (fun q0 => isX g (eset e q v q0)) (seq 0 n) (cden gs2 (basis n (fun q => b (nth q (ginputs g) 0%nat)))) z) -> binv n g (D ++ [v]) (eset e q v) gs2).
  { intros gs2 G2 S2. assert (IV : forall w, In w (ginputs g ++ D ++ [v]) <-> In w (ginputs g ++ D) \/ w = v) by (intros w; rewrite !in_app_iff; simpl; intuition).
    constructor; auto.
    - intros k Hk. unfold eset. destruct (Nat.eqb_spec k q) as [->|D1].
      + split; [apply IV; auto|]. split; auto. intros w Hw Ew. apply IV in Hw. destruct Hw as [Hw| ->]; [apply RLE; auto|rewrite (zx_noloop g ZX) in Ew; congruence].
      + destruct (b_e n g D e gs B k Hk) as [X1 [X2 X3]]. split; [apply IV; auto|]. split; auto. intros w Hw Ew. apply IV in Hw. destruct Hw as [Hw| ->]; auto. intros L.
        rewrite (wf_sym g W) in Ew. apply PR in Ew; auto. rewrite Ew, R4 in X2. apply some_crd in X2. auto.
    - intros u k Hu Uk NL. apply IV in Hu. unfold eset. destruct Hu as [Hu| ->].
      + assert (EU : u = e k). { apply (b_u n g D e gs B); auto. intros w Hw. apply NL, IV; auto. }
        destruct (Nat.eqb_spec k q) as [->|D1]; auto. exfalso. rewrite <- NE in EU. subst u. apply (NL v); auto; [apply IV; auto|rewrite ET; discriminate].
      + rewrite R1 in Uk. apply some_crd in Uk. subst k. rewrite Nat.eqb_refl. auto.
    - intros u Hu. apply IV in Hu. destruct Hu as [Hu| ->]; [apply (b_q n g D e gs B); auto|exists q; auto].
    - intros u Hu. apply in_app_or in Hu. destruct Hu as [Hu|[<-|[]]]; [apply (b_p n g D e gs B); auto|exists nn; auto]. }
  (* the amplitudes *)
  set (c := isX g v) in *. set (p' := if isB g v then 0%Qc else phase g v).
  set (F' := fun q0 => isX g (eset e q v q0)).
  assert (FQ : F' q = c) by (unfold F', eset; rewrite Nat.eqb_refl; auto).
  assert (FN : forall i, i <> q -> F' i = isX g (e i)) by (intros i Hi; unfold F', eset; rewrite (proj2 (Nat.eqb_neq i q)); auto).
  set (K := to_number (gscalar g) * sq2p (- Z.of_nat (two_count gs))).
  assert (AMP : forall b, part_amp n g (ginputs g) (D ++ [v]) (eset e q v) b = fun z =>
     cprod (fun u => ew g u v (z (Q u)) (z q)) side * (K * hads F' (seq 0 n) (nodeop c et p' q (cden gs (basis n (fun q => b (nth q (ginputs g) 0%nat))))) z)).
  { intros b. rewrite (part_amp_step n g (ginputs g) D e q v et side Q b).
    - apply functional_extensionality. intros z. f_equal. rewrite (b_s n g D e gs B b). fold K. rewrite op1_smul, op1_smul. f_equal.
      rewrite (op1_ext _ _ _ _ (pw_mP g v)). fold p'. fold c. change (isX g (e q)) with ((fun q0 => isX g (e q0)) q). rewrite (hads_node n _ F' q c et p' _ Hq FQ); auto.
    - rewrite app_assoc. apply nodup_app; auto.
      + apply nodup_app; [apply (NoDup_app_l _ _ (cl_nd n g H))|apply (NoDup_app_l _ _ ND)|]. intros x X1 X2. apply (BI x); auto. apply in_or_app; auto.
      + repeat constructor; simpl; tauto.
      + intros x X1 [<-|[]]. contradiction.
    - exact Hq.
    - intros i Hi. apply (b_e n g D e gs B i Hi).
    - rewrite <- NE. exact ET.
    - constructor; [|apply NoDup_filter, neighbors_nd; auto]. intros X. rewrite <- NE in X. destruct (SI nn X) as [_ [_ Y]]. rewrite Y in RN. eapply Qclt_not_eq; eauto.
    - intros u Hu. destruct (SQ u Hu) as [A1 [A2 [A3 _]]]. auto.
    - intros u Hu Eu. rewrite (wf_sym g W) in Eu. destruct (RW u Hu) as [X|[X1 [X2 X3]]]; [left; rewrite <- NE; apply PR; auto|right].
      apply filter_In. split; [apply neighbors_spec; auto|]. rewrite X2, (proj2 (qeqb_eq _ _) eq_refl), (proj2 (Nat.ltb_lt u v) X3). reflexivity. }
  assert (GH : forall k, In k (if isH et then [GHAD q] else []) -> gate_in n k /\ gate_qubits k = [q]).
  { intros k Hk. destruct (isH et); [|destruct Hk]. destruct Hk as [<-|[]]. split; [|reflexivity]. split; [|intros i [<-|[]]; auto]. split; [repeat constructor; simpl; tauto|]. split; [discriminate|exact I]. }
  assert (HM : match (Some et : option etype) with Some HADAMARD => [GHAD q] | _ => [] end = if isH et then [GHAD q] else []) by (destruct et; reflexivity).
  rewrite HM in R. clear HM.
  destruct (vtype_eqb t BOUNDARY) eqn:TB.
  - (* a boundary *)
    injection R as <-. exists (eset e q v). assert (Bv : vty g v = BOUNDARY) by (rewrite Tv; destruct t; try discriminate; auto).
    assert (S0 : side = []).
    { destruct side as [|u s] eqn:ES; auto. exfalso. destruct (SI u (or_introl eq_refl)) as [_ [X1 X2]]. destruct (zi_deg g Z v Vv Bv) as [x Hx]. apply Hx in X1, EN. subst u x. rewrite X2 in RN. eapply Qclt_not_eq; eauto. }
    apply PART.
    + intros k Hk. apply in_app_or in Hk. destruct Hk as [Hk|Hk]; [apply (b_g n g D e gs B); auto|apply GH; auto].
    + intros b. rewrite AMP, S0. apply functional_extensionality. intros z. cbn [cprod]. rewrite two_count_app.
      rewrite (one_count (if isH et then [GHAD q] else [])) by (intros k Hk; exists q; apply GH; auto). rewrite Nat.add_0_r. fold K. fold F'. rewrite Cmult_1_l. f_equal. f_equal.
      rewrite cden_app. unfold p', c, isB, isX. rewrite Bv. cbn [vtype_eqb]. unfold nodeop. rewrite (op1_ext _ mI) by apply mP_0. rewrite op1_I. cbn [xorb hif]. destruct et; reflexivity.
  - (* a spider *)
    rewrite (filterM_ok _ _ (fun w => qeqb (row g w) (row g v) && Nat.ltb w v)) in R by (intros w Hw; rewrite row_get_ok; auto; apply Z). cbn [bind] in R. fold side in R.
    assert (TS : vty g v = ZSP \/ vty g v = XSP). { assert (HB := zx_zx g ZX v Vv). rewrite Tv in *. destruct t; auto; [discriminate TB|congruence]. }
    assert (PP : p' = phase g v) by (unfold p', isB; rewrite Tv, TB; auto).
    exists (eset e q v). rewrite <- Tv, <- Pv in R.
    assert (SO := fun s0 K1 g1 g2 => side_ok n g v q F' (eset e q v) Q s0 K1 W Hq (eq_sym FQ) TS (fun i _ _ => eq_refl) side g1 g2).
    assert (SQ' : forall u, In u side -> (Q u < n)%nat /\ Q u <> q /\ eset e q v (Q u) = u /\ dget u (gqindex g) = Some (crd (Q u)) /\ (vty g u = ZSP \/ vty g u = XSP)).
    { intros u Hu. destruct (SQ u Hu) as [A1 [A2 [A3 A4]]]. split; auto. split; auto. split; [unfold eset; rewrite (proj2 (Nat.eqb_neq _ _) A2); auto|split; auto]. }
    destruct (SO (fun _ => C0) C0 _ _ SQ' R) as [[tl [-> [LT HT]]] _].
    set (hd := if isH et then [GHAD q] else []) in *. set (sp := spider_gates split (vty g v) q (phase g v)) in *.
    assert (GS : forall k, In k sp -> gate_in n k /\ gate_qubits k = [q]).
    { intros k Hk. destruct (spider_qubits split (vty g v) q (phase g v) k Hk) as [X Y]. split; auto. split; auto. intros i Hi. rewrite Y in Hi. destruct Hi as [<-|[]]; auto. }
    assert (TC : two_count (((gs ++ hd) ++ sp) ++ tl) = (two_count gs + length side)%nat).
    { rewrite !two_count_app, (one_count hd) by (intros k Hk; exists q; apply GH; auto). rewrite (one_count sp) by (intros k Hk; exists q; apply GS; auto). rewrite <- LT.
      assert (X : two_count tl = length tl). { clear -HT. unfold two_count. induction tl as [|k tl IH]; auto. cbn [filter]. destruct (HT k (or_introl eq_refl)) as [_ ->]. cbn [length]. rewrite IH; auto. intros; apply HT; right; auto. }
      rewrite X. lia. }
    apply PART.
    + intros k Hk. rewrite !in_app_iff in Hk. destruct Hk as [[[Hk|Hk]|Hk]|Hk]; [apply (b_g n g D e gs B); auto|apply GH; auto|apply GS; auto|apply HT; auto].
    + intros b. rewrite AMP, TC. apply functional_extensionality. intros z.
      destruct (SO (basis n (fun q => b (nth q (ginputs g) 0%nat))) K _ _ SQ' R) as [_ ID2]. specialize (ID2 z).
      rewrite PP. unfold c, isX. rewrite (nodeop_den split (vty g v) q (phase g v) et) by (auto; apply ZX; auto). fold hd sp.
      rewrite <- cden_app, app_assoc. etransitivity; [exact ID2|]. unfold K. rewrite Nat2Z.inj_add, Z.opp_add_distr, sq2p_add. rewrite !Cmult_assoc. reflexivity.
Qed.

Lemma binv_all : forall split n g, circuit_like n g -> forall E D e gs gs', border g = D ++ E -> binv n g D e gs ->
  foldM (fun gs v => vertex_gates split g (row g v) gs v) E gs = Ok gs' -> exists e', binv n g (border g) e' gs'.
Proof.
  intros split n g H. induction E as [|v E IH]; intros D e gs gs' O B R.
  - cbn [foldM] in R. injection R as <-. rewrite app_nil_r in O. rewrite O. eauto.
  - cbn [foldM] in R. apply bind_ok in R. destruct R as [g1 [R1 R]]. destruct (binv_step split n g D v E e gs g1 H O B R1) as [e1 B1].
    apply (IH (D ++ [v]) e1 g1 gs'); auto. rewrite <- app_assoc. exact O.
Qed.

Theorem graph_to_circuit_ok : forall split n g c, circuit_like n g -> graph_to_circuit split g = Ok c ->
  cqubits c = n /\ circ_ok c /\
  forall b, sem g b = to_number (gscalar g) * sq2p (- Z.of_nat (two_count (cgates c))) *
    cden (cgates c) (basis n (fun q => b (nth q (ginputs g) 0%nat))) (fun q => b (nth q (goutputs g) 0%nat)).
Proof.
  intros split n g c H R. unfold graph_to_circuit in R. apply bind_ok in R. destruct R as [gs [R X]]. injection X as <-. cbn [cqubits cgates].
  rewrite fold_items in R.
  2:{ intros e v He Hv. unfold row_items in He. apply in_map_iff in He. destruct He as [r [<- _]]. cbn [snd fst] in *. apply filter_In in Hv. apply has_row_iff. tauto. }
  destruct (binv_all split n g H (border g) [] _ [] gs eq_refl (binv_start n g H) R) as [e B].
  assert (Z := cl_z n g H). assert (ZX := zi_zx g Z). assert (W := zx_wf g ZX). assert (LI := cl_in n g H). assert (LO := cl_out n g H).
  split; auto. split. { intros k Hk. cbn [cqubits]. rewrite LI. apply (b_g n g _ e gs B); auto. }
  assert (NIO := cl_nd n g H).
  assert (OI : forall o, In o (goutputs g) -> ~ In o (ginputs g)) by (intros o X1 X2; eapply (NoDup_app_disj _ _ _ NIO); eauto).
  assert (OB : forall o, In o (goutputs g) -> In o (vertices g) /\ vty g o = BOUNDARY).
  { intros o Ho. destruct (zx_io g ZX o (or_intror Ho)) as [X1 X2]. split; auto. unfold isB in X2. destruct (vty g o); try discriminate; auto. }
  assert (EO : forall q, (q < n)%nat -> e q = nth q (goutputs g) 0%nat).
  { intros q Hq. symmetry. assert (Io : In (nth q (goutputs g) 0%nat) (goutputs g)) by (apply nth_In; lia). destruct (OB _ Io) as [Vo To].
    assert (Bo : In (nth q (goutputs g) 0%nat) (border g)) by (apply border_in; auto).
    apply (b_u n g _ e gs B); [apply in_or_app; auto|apply (cl_oq n g H); auto|].
    intros w _ Ew L. destruct (b_p n g _ e gs B _ Bo) as [w' [Ew' L']]. destruct (zi_deg g Z _ Vo To) as [x Hx]. apply Hx in Ew, Ew'. subst w w'.
    eapply Qclt_not_le; [exact L|apply Qclt_le_weak; auto]. }
  intros b. assert (S := b_s n g _ e gs B b). set (z := fun q => b (nth q (goutputs g) 0%nat)). assert (Sz := equal_f S z). cbv beta in Sz.
  rewrite hads_none in Sz.
  2:{ intros q Hq. apply in_seq in Hq. rewrite EO by lia. destruct (OB (nth q (goutputs g) 0%nat)) as [_ T]; [apply nth_In; lia|]. unfold isX. rewrite T. reflexivity. }
  rewrite <- Sz. clear S Sz. unfold part_amp.
  assert (NB := border_nodup g (cl_srt n g H)).
  assert (NO : NoDup (goutputs g)) by (apply (NoDup_app_r _ _ NIO)).
  assert (NI : NoDup (ginputs g)) by (apply (NoDup_app_l _ _ NIO)).
  assert (P1 : Permutation (ginputs g ++ border g) (vertices g)).
  { apply nodup_same_perm; [|apply W|].
    - apply nodup_app; auto. intros a X1 X2. apply border_in in X2. tauto.
    - intros a. rewrite in_app_iff, border_in. split; [intros [X|[X _]]; auto; apply (zx_io g ZX); auto|]. intros X. destruct (in_dec Nat.eq_dec a (ginputs g)); auto. }
  assert (P2 : Permutation (border g) (goutputs g ++ internal g)).
  { apply nodup_same_perm; auto.
    - apply nodup_app; auto; [apply NoDup_filter, W|]. intros a X1 X2. apply filter_In in X2. destruct X2 as [_ X2]. destruct (OB a X1) as [_ T]. unfold isB in X2. rewrite T in X2. discriminate.
    - intros a. rewrite in_app_iff, border_in. unfold internal. rewrite filter_In. split.
      + intros [X1 X2]. unfold isB. destruct (vty g a) eqn:T; auto. destruct (zi_io g Z a X1 T); auto.
      + intros [X|[X1 X2]]; [split; [apply OB; auto|apply OI; auto]|]. split; auto. intros X. destruct (zx_io g ZX a (or_introl X)) as [_ Y]. rewrite Y in X2. discriminate. }
  rewrite (sumv_perm _ _ P2 NB), sumv_app.
  assert (TT : forall x, tails (seq 0 n) e x z = cprod (fun o => dlt (x o) (b o)) (goutputs g)).
  { intros x. rewrite (map_nth_seq (goutputs g)) at 1. rewrite LO, cprod_map. unfold tails. apply cprod_ext. intros q Hq. apply in_seq in Hq. rewrite EO by lia. reflexivity. }
  transitivity (sumv (goutputs g) (fun x => sumv (internal g) (integL (vertices g) g) x * cprod (fun o => dlt (x o) (b o)) (goutputs g)) b).
  - rewrite sumv_point by auto. unfold sem. f_equal. apply functional_extensionality. intros v. destruct (in_dec _ _ _); auto.
  - apply sumv_ext. intros x. rewrite Cmult_comm. rewrite <- (sumv_mult_indep (internal g) (fun x => cprod (fun o => dlt (x o) (b o)) (goutputs g))).
    + apply sumv_ext. intros y. rewrite TT, (integL_perm g _ _ y W P1). ring.
    + intros y v w Hv. apply cprod_ext. intros o Ho. rewrite upd_other; auto. intros ->. apply filter_In in Hv. destruct Hv as [_ X2]. destruct (OB v Ho) as [_ T]. unfold isB in X2. rewrite T in X2. discriminate.
Qed.

(** ** When it returns *)
(** the wires of the drawing: each vertex that is not an input is reached from one vertex in an earlier row, on its own
    qubit; edges inside a row are CZ or CNOT gates *)
Record wired (g : graph) : Prop := mkwired {
  wi_q : forall v, In v (vertices g) -> exists k, dget v (gqindex g) = Some (crd k);
  wi_prev : forall v, In v (vertices g) -> ~ In v (ginputs g) -> exists u, edge_type g u v <> None /\ (row g u < row g v)%Qc /\
    dget u (gqindex g) = dget v (gqindex g) /\ forall w, edge_type g w v <> None -> (row g w < row g v)%Qc -> w = u;
  wi_side : forall u v et, edge_type g u v = Some et -> row g u = row g v ->
    (vty g u = ZSP /\ vty g v = ZSP /\ et = HADAMARD) \/ (vty g u = ZSP /\ vty g v = XSP /\ et = SIMPLE) \/ (vty g u = XSP /\ vty g v = ZSP /\ et = SIMPLE) }.
Lemma foldM_total : forall A B (f : B -> A -> res B) l s, (forall a s, In a l -> exists s', f s a = Ok s') -> exists s', foldM f l s = Ok s'.
Proof.
  induction l as [|a l IH]; intros s H; [eexists; reflexivity|]. cbn [foldM]. destruct (H a s (or_introl eq_refl)) as [s1 ->]. cbn [bind]. apply IH. intros; apply H; right; auto.
Qed.
Lemma foldM_each : forall A B (f : B -> A -> res B) l s s', foldM f l s = Ok s' -> forall a, In a l -> exists s1 s2, f s1 a = Ok s2.
Proof.
  induction l as [|a l IH]; intros s s' H x Hx; [destruct Hx|]. cbn [foldM] in H. apply bind_ok in H. destruct H as [s1 [H1 H]]. destruct Hx as [<-|Hx]; eauto.
Qed.
Lemma nbr_vert : forall g v w, wfg g -> In w (neighbors g v) -> In w (vertices g).
Proof. intros g v w W Hw. apply neighbors_spec in Hw. destruct (edge_type g v w) eqn:X; [|congruence]. eapply edge_in_r; eauto. Qed.
Lemma filter_one : forall (f : nat -> bool) l u, NoDup l -> In u l -> f u = true -> (forall w, In w l -> f w = true -> w = u) -> filter f l = [u].
Proof.
  intros f l u N I F H. assert (P : Permutation (filter f l) [u]).
  { apply nodup_same_perm; [apply NoDup_filter; auto|repeat constructor; simpl; tauto|]. intros a. rewrite filter_In. simpl. split; [intros [X Y]; left; symmetry; auto|intros [<-|[]]; auto]. }
  apply Permutation_sym, Permutation_length_1_inv in P. exact P.
Qed.
Theorem graph_to_circuit_total : forall split n g, circuit_like n g -> wired g -> exists c, graph_to_circuit split g = Ok c.
Proof.
  intros split n g H D. assert (Z := cl_z n g H). assert (ZX := zi_zx g Z). assert (W := zx_wf g ZX).
  unfold graph_to_circuit. rewrite fold_items.
  2:{ intros e v He Hv. unfold row_items in He. apply in_map_iff in He. destruct He as [r [<- _]]. cbn [snd fst] in *. apply filter_In in Hv. apply has_row_iff. tauto. }
  assert (X : exists gs, foldM (fun gs v => vertex_gates split g (row g v) gs v) (concat (map snd (row_items g))) [] = Ok gs).
  { apply foldM_total. intros v gs Hv. fold (border g) in Hv. apply border_in in Hv. destruct Hv as [Vv Iv].
    assert (Dt : exists t, dget v (gty g) = Some t) by (apply dget_keys, (wf_ty g W); auto). destruct Dt as [t Dt].
    assert (Dp : exists p, dget v (gphase g) = Some p) by (apply dget_keys, (wf_ph g W); auto). destruct Dp as [p Dp].
    destruct (wi_q g D v Vv) as [k Dq]. destruct (wi_prev g D v Vv Iv) as [u [E1 [E2 [E3 E4]]]].
    unfold vertex_gates. rewrite Dq, Dp, Dt, neighbors_r_ok by auto. cbn [of_opt bind].
    rewrite (filterM_ok _ _ (fun w => qltb (row g w) (row g v))) by (intros w Hw; rewrite row_get_ok; auto; [apply Z|eapply nbr_vert; eauto]). cbn [bind].
    rewrite (filter_one (fun w => qltb (row g w) (row g v)) _ u).
    2:{ apply neighbors_nd; auto. } 2:{ apply neighbors_spec. rewrite (wf_sym g W). auto. } 2:{ apply qltb_lt; auto. }
    2:{ intros w Hw L. apply E4; [rewrite (wf_sym g W); apply neighbors_spec; auto|apply qltb_lt; auto]. }
    rewrite E3, Dq. cbn [of_opt bind]. rewrite (proj2 (qeqb_eq _ _) eq_refl). cbn [negb]. rewrite qnat_crd. cbn [bind].
    destruct (vtype_eqb t BOUNDARY); [eexists; reflexivity|].
    rewrite (filterM_ok _ _ (fun w => qeqb (row g w) (row g v) && Nat.ltb w v)) by (intros w Hw; rewrite row_get_ok; auto; [apply Z|eapply nbr_vert; eauto]). cbn [bind].
    apply foldM_total. intros w gs1 Hw. apply filter_In in Hw. destruct Hw as [Hw Rw]. apply andb_true_iff in Rw. destruct Rw as [Rw _]. apply qeqb_eq in Rw.
    assert (Vw := nbr_vert g v w W Hw). apply neighbors_spec in Hw. destruct (edge_type g v w) as [et|] eqn:ET; [|congruence].
    assert (SD := wi_side g D v w et ET (eq_sym Rw)). unfold vty in SD. rewrite Dt in SD. destruct (wi_q g D w Vw) as [kw Dw].
    assert (Dt2 : exists t, dget w (gty g) = Some t) by (apply dget_keys, (wf_ty g W); auto). destruct Dt2 as [t2 Dt2]. rewrite Dt2 in SD.
    unfold side_gate. rewrite Dt2, Dw, ET. cbn [of_opt bind]. rewrite qnat_crd. cbn [bind].
    destruct SD as [[-> [-> ->]]|[[-> [-> ->]]|[-> [-> ->]]]]; cbn; eexists; reflexivity. }
  destruct X as [gs ->]. cbn [bind]. eexists; reflexivity.
Qed.
Theorem graph_to_circuit_only : forall split n g c, circuit_like n g -> graph_to_circuit split g = Ok c -> wired g.
Proof.
  intros split n g c H R. assert (Z := cl_z n g H). assert (ZX := zi_zx g Z). assert (W := zx_wf g ZX).
  unfold graph_to_circuit in R. apply bind_ok in R. destruct R as [gs [R _]]. rewrite fold_items in R.
  2:{ intros e v He Hv. unfold row_items in He. apply in_map_iff in He. destruct He as [r [<- _]]. cbn [snd fst] in *. apply filter_In in Hv. apply has_row_iff. tauto. }
  fold (border g) in R.
  destruct (binv_all split n g H (border g) [] _ [] gs eq_refl (binv_start n g H) R) as [e B].
  assert (EACH : forall v, In v (vertices g) -> ~ In v (ginputs g) -> exists s1 s2, vertex_gates split g (row g v) s1 v = Ok s2).
  { intros v Vv Iv. apply (foldM_each _ _ _ _ _ _ R). apply border_in; auto. }
  assert (PRV : forall v, In v (vertices g) -> ~ In v (ginputs g) -> exists u, edge_type g u v <> None /\ (row g u < row g v)%Qc /\
    dget u (gqindex g) = dget v (gqindex g) /\ forall w, edge_type g w v <> None -> (row g w < row g v)%Qc -> w = u).
  { intros v Vv Iv. destruct (EACH v Vv Iv) as [s1 [s2 V]]. unfold vertex_gates in V. inv_bind V. inv_bind V. inv_bind V. rewrite neighbors_r_ok in V by auto. cbn [bind] in V.
    rewrite (filterM_ok _ _ (fun w => qltb (row g w) (row g v))) in V by (intros w Hw; rewrite row_get_ok; auto; [apply Z|eapply nbr_vert; eauto]). cbn [bind] in V.
    destruct (filter (fun w => qltb (row g w) (row g v)) (neighbors g v)) as [|u [|]] eqn:PV; try discriminate V. inv_bind V. apply of_opt_some in E, E2. destruct (qeqb a2 a) eqn:EQ; [|discriminate V]. apply qeqb_eq in EQ. subst a2.
    assert (X : In u (filter (fun w => qltb (row g w) (row g v)) (neighbors g v))) by (rewrite PV; left; auto). apply filter_In in X. destruct X as [X1 X2]. exists u.
    split; [rewrite (wf_sym g W); apply neighbors_spec; auto|]. split; [apply qltb_lt; auto|]. split; [congruence|].
    intros w Hw L. assert (Y : In w (filter (fun w => qltb (row g w) (row g v)) (neighbors g v))) by (apply filter_In; split; [apply neighbors_spec; rewrite (wf_sym g W); auto|apply qltb_lt; auto]). rewrite PV in Y. destruct Y as [Y|[]]; auto. }
  assert (SIDE : forall u v et, (u < v)%nat -> edge_type g u v = Some et -> row g u = row g v ->
    (vty g u = ZSP /\ vty g v = ZSP /\ et = HADAMARD) \/ (vty g u = ZSP /\ vty g v = XSP /\ et = SIMPLE) \/ (vty g u = XSP /\ vty g v = ZSP /\ et = SIMPLE)).
  { intros u v et L ET RE. assert (Vu := edge_in_l g u v et ET). assert (Vv := edge_in_r g u v et W ET).
    assert (NI : forall x y, edge_type g x y <> None -> In x (vertices g) -> In y (vertices g) -> row g x = row g y -> ~ In x (ginputs g)).
    { intros x y E1 Vx Vy RR I. destruct (in_dec Nat.eq_dec y (ginputs g)) as [Iy|Iy]; [apply E1, (cl_ii n g H); auto|]. assert (X := cl_rows n g H x y I Vy Iy). rewrite RR in X. eapply Qclt_not_eq; eauto. }
    assert (Iu : ~ In u (ginputs g)) by (apply (NI u v); auto; rewrite ET; discriminate).
    assert (Iv : ~ In v (ginputs g)) by (apply (NI v u); auto; rewrite (wf_sym g W), ET; discriminate).
    assert (NB : forall x y, edge_type g x y <> None -> In x (vertices g) -> ~ In x (ginputs g) -> row g x = row g y -> vty g x = ZSP \/ vty g x = XSP).
    { intros x y E1 Vx Ix RR. assert (HB := zx_zx g ZX x Vx). destruct (vty g x) eqn:T; auto; [|congruence]. exfalso. destruct (zi_deg g Z x Vx T) as [o Ho]. destruct (PRV x Vx Ix) as [w [X1 [X2 _]]]. rewrite (wf_sym g W) in X1. apply Ho in X1, E1. subst w y. rewrite RR in X2. eapply Qclt_not_eq; eauto. }
    assert (Tu : vty g u = ZSP \/ vty g u = XSP) by (apply (NB u v); auto; rewrite ET; discriminate).
    assert (Tv : vty g v = ZSP \/ vty g v = XSP) by (apply (NB v u); auto; rewrite (wf_sym g W), ET; discriminate).
    destruct (EACH v Vv Iv) as [s1 [s2 V]]. unfold vertex_gates in V. inv_bind V. inv_bind V. inv_bind V. apply of_opt_some in E1. rewrite neighbors_r_ok in V by auto. cbn [bind] in V.
    inv_bind V. destruct a2 as [|u1 [|]]; try discriminate V. inv_bind V. destruct (qeqb a2 a); [|discriminate V]. cbn [negb] in V. inv_bind V.
    assert (Ta : vty g v = a1) by (unfold vty; rewrite E1; auto). rewrite <- Ta in V. destruct (vtype_eqb (vty g v) BOUNDARY) eqn:TB; [destruct Tv as [Tv|Tv]; rewrite Tv in TB; discriminate|].
    rewrite (filterM_ok _ _ (fun w => qeqb (row g w) (row g v) && Nat.ltb w v)) in V by (intros w Hw; rewrite row_get_ok; auto; [apply Z|eapply nbr_vert; eauto]). cbn [bind] in V.
    assert (IU : In u (filter (fun w => qeqb (row g w) (row g v) && Nat.ltb w v) (neighbors g v))).
    { apply filter_In. split; [apply neighbors_spec; rewrite (wf_sym g W), ET; discriminate|]. rewrite (proj2 (qeqb_eq _ _) RE), (proj2 (Nat.ltb_lt u v) L). reflexivity. }
    destruct (foldM_each _ _ _ _ _ _ V u IU) as [s3 [s4 SG]]. unfold side_gate in SG. apply bind_ok in SG. destruct SG as [tu [SG1 SG]]. apply of_opt_some in SG1. assert (Tb : vty g u = tu) by (unfold vty; rewrite SG1; auto). rewrite <- Tb in SG. inv_bind SG. inv_bind SG.
    rewrite (wf_sym g W v u), ET in SG. destruct Tu as [Tu|Tu], Tv as [Tv|Tv]; rewrite Tu, Tv in *; cbn in SG; destruct et; try discriminate SG; auto. }
  constructor; auto.
  - intros v Vv. assert (I : In v (ginputs g ++ border g)) by (apply in_or_app; destruct (in_dec Nat.eq_dec v (ginputs g)); auto; right; apply border_in; auto).
    destruct (b_q n g _ e gs B v I) as [q [_ Q]]. eauto.
  - intros u v et ET RE. destruct (Nat.lt_trichotomy u v) as [L|[->|L]]; auto; [rewrite (zx_noloop g ZX) in ET; discriminate|].
    rewrite (wf_sym g W) in ET. destruct (SIDE v u et L ET (eq_sym RE)) as [X|[X|X]]; tauto.
Qed.

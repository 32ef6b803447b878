(** Soundness of phase-gadget fusion. *)
From Coq Require Import Reals ZArith QArith Qcanon List Bool Arith Lia Permutation FinFun.
From Verif Require Import CNum Base ScalarModel ScalarProofs GraphModel GraphSem SumLemmas GraphProofs GraphOps
  RulesModel RuleLemmas SpiderProofs IsoProofs IdProofs LcompProofs PivotProofs GrowProofs PivotMatch.
Import ListNotations.
Open Scope C_scope.

(** v is a leaf on the axle n *)
Definition gleaf (g : graph) (n v : nat) : Prop :=
  vty g n = ZSP /\ vty g v = ZSP /\ edge_type g v n = Some HADAMARD /\ neighbors g v = [n].

Lemma set_zero_add_pi : forall n g, phase g n = 1%Qc -> set_phase n 0%Qc g = add_to_phase n 1%Qc g.
Proof.
  intros n g H. unfold set_phase, add_to_phase. rewrite H. f_equal.
Qed.

Definition neg_gadget (n v : nat) (g : graph) : graph :=
  set_phase n 0%Qc (set_phase v (- phase g v)%Qc (on_scalar (s_add_phase (phase g v)) g)).

Lemma neg_frame : forall n v g, same_frame g (neg_gadget n v g).
Proof. intros. unfold neg_gadget. eapply same_frame_trans; [|apply set_phase_frame]. eapply same_frame_trans; [|apply set_phase_frame]. apply on_scalar_frame. Qed.
Lemma neg_phase : forall n v g u, phase (neg_gadget n v g) u = if Nat.eqb u n then 0%Qc else if Nat.eqb u v then qmod2 (- phase g v)%Qc else phase g u.
Proof. intros. unfold neg_gadget. rewrite !phase_set_phase, qmod2_0. reflexivity. Qed.

Lemma leaf_in : forall g n v, wfg g -> gleaf g n v -> In n (vertices g) /\ In v (vertices g).
Proof.
  intros g n v W [_ [_ [E _]]]. split; [apply (edge_in_r g v n HADAMARD)|apply (edge_in_l g v n HADAMARD)]; auto.
Qed.

Lemma neg_one : forall g n v, zxok g -> gleaf g n v -> phase g n = 1%Qc -> step_ok g (neg_gadget n v g).
Proof.
  intros g n v ZX L PN. assert (W := zx_wf g ZX). assert (NL := zx_noloop g ZX).
  destruct (leaf_in g n v W L) as [In_ Iv]. destruct L as [Tn [Tv [E NB]]].
  assert (Nnv : v <> n) by (intros ->; rewrite NL in E; discriminate).
  assert (F := neg_frame n v g).
  assert (W' : wfg (neg_gadget n v g)).
  { unfold neg_gadget. apply set_phase_wfg; [apply set_phase_wfg; [apply on_scalar_wfg; auto|auto]|auto]. }
  split.
  - apply (frame_zxok g); auto.
    intros u Hu. rewrite neg_phase. destruct (Nat.eqb u n); [split; [discriminate|reflexivity]|].
    destruct (Nat.eqb u v); [apply qmod2_range|]. apply ZX. rewrite <- (proj1 F); auto.
  - split; [reflexivity|]. split; [reflexivity|].
    set (core := keep [v] g).
    assert (P1 : Permutation (vertices g) ([v] ++ core)).
    { apply (vertices_split g [v]); auto; [constructor; [simpl; tauto|constructor]|]. intros u [<-|[]]; auto. }
    assert (BV : isB g v = false) by (unfold isB; rewrite Tv; reflexivity).
    apply (sem_regroup g (neg_gadget n v g) [v] [v] core); auto.
    + intros u [<-|[]]; auto.
    + intros u [<-|[]]. rewrite (same_frame_isB g); auto.
    + intros x.
      assert (NDc : NoDup ([v] ++ core)) by (eapply Permutation_NoDup; [exact P1|apply W]).
      assert (Nc : ~ In v core) by (simpl in NDc; inversion NDc; auto).
      assert (Cn : In n core) by (apply in_keep; split; auto; simpl; intuition).
      assert (BS := fun g x H1 H2 => batch_sum nat (fun v => [v]) g [v] core x H1 H2). cbn [flat_map app cprod] in BS.
      change ([v] ++ core) with (v :: core) in *.
      rewrite !BS; auto; try (constructor; [constructor|constructor]).
      rewrite !loc_single; auto; try (intros u; change (neighbors (neg_gadget n v g) v) with (neighbors g v); rewrite NB; intros [<-|[]]; auto; fail);
        try (apply keep_nd; auto; fail).
      change (neighbors (neg_gadget n v g) v) with (neighbors g v). rewrite NB. cbn [cprod].
      assert (EW : forall g0 b c, vty g0 v = ZSP -> vty g0 n = ZSP -> edge_type g0 v n = Some HADAMARD -> ew g0 v n b c = sq2p (-1) * sgn (b && c)).
      { intros g0 b c X Y Z. unfold ew, isX. rewrite X, Y, Z. reflexivity. }
      rewrite !EW; auto. unfold pw. rewrite BV. change (isB (neg_gadget n v g) v) with (isB g v). rewrite BV, neg_phase.
      rewrite Nat.eqb_refl. destruct (Nat.eqb_spec v n); [contradiction|].
      assert (IC : integL core (neg_gadget n v g) x = integL core g x * cexp (phase g v) * ephase 1%Qc (x n)).
      { unfold neg_gadget. rewrite set_zero_add_pi.
        - rewrite integL_add_to_phase; auto; [|apply keep_nd; auto|unfold isB; simpl; change (vtype_eqb (vty g n) BOUNDARY = false); rewrite Tn; reflexivity].
          rewrite integL_set_phase_out by auto. rewrite integL_sphase. reflexivity.
        - rewrite phase_set_phase. destruct (Nat.eqb_spec n v); [congruence|]. exact PN. }
      rewrite IC. unfold ephase. rewrite cexp_qmod2.
      assert (CC : cexp (phase g v) * cexp (- phase g v)%Qc = C1).
      { rewrite <- cexp_add. replace (phase g v + - phase g v)%Qc with 0%Qc by ring. apply cexp_0. }
      destruct (x n); cbn [andb]; unfold sgn.
      * assert (cexp 1%Qc = - C1) by (apply (ephase_1 true)). rewrite H.
        set (h := sq2p (-1)) in *. set (p := cexp (phase g v)) in *. set (q := cexp (- phase g v)%Qc) in *. set (I := integL core g x).
        transitivity (I * (h * C1 + h * (- p))); [ring|].
        transitivity (I * (h * (p*q) + h * (- p))); [rewrite CC; ring|ring].
      * set (h := sq2p (-1)) in *. set (p := cexp (phase g v)) in *. set (q := cexp (- phase g v)%Qc) in *. set (I := integL core g x).
        transitivity (I * (h * C1 + h * p)); [ring|].
        transitivity (I * (h * (p*q) + h * p)); [rewrite CC; ring|ring].
Qed.

(** ** the value of one gadget *)
Lemma gadget_local : forall g n v par core x, wfg g -> noloop g -> NoDup core -> gleaf g n v -> phase g n = 0%Qc ->
  ~ In n core -> ~ In v core -> NoDup par -> (forall u, In u par <-> In u (neighbors g n) /\ u <> v) ->
  (forall u, In u par -> In u core /\ vty g u = ZSP /\ edge_type g n u = Some HADAMARD) ->
  sumv [n;v] (loc g [n;v] core) x = sq2p (1 - Z.of_nat (length par)) * ephase (phase g v) (parity x par).
Proof.
  intros g n v par core x W NL ND [Tn [Tv [E NB]]] PN Cn Cv NP HP HC.
  assert (Nnv : v <> n) by (intros ->; rewrite NL in E; discriminate).
  assert (LV : forall a b, loc g [n;v] core (upd (upd x n a) v b) =
     sq2p (-1) * sq2p (- Z.of_nat (length par)) * (ephase (phase g v) b * sgn (a && b) * sgn (a && parity x par))).
  { intros a b. rewrite (loc_pair g n v core par []); auto.
    - rewrite (upd_other _ v b n) by auto. rewrite !upd_same. cbn [cprod].
      rewrite (cprod_h g n a) by (auto; intros u Hu; split; apply HC; auto).
      rewrite !parity_upd by (intros X; apply HC in X; tauto).
      unfold pw, isB. rewrite Tn, Tv, PN. cbn [vtype_eqb]. rewrite ephase_0.
      replace (ew g n v a b) with (sq2p (-1) * sgn (a && b)).
      2:{ unfold ew, isX. rewrite (wf_sym g W n v), E, Tn, Tv. reflexivity. }
      ring.
    - constructor.
    - intros u. rewrite HP, neighbors_spec. split; [|intuition congruence].
      intros [A B]. assert (In u par) by (apply HP; split; [apply neighbors_spec|]; auto). split; [apply HC; auto|auto].
    - intros u. split; [intros []|]. rewrite <- neighbors_spec, NB. intros [A [<-|[]]]. contradiction. }
  cbn [sumv]. rewrite !LV. replace (1 - Z.of_nat (length par))%Z with (2 + (-1 + - Z.of_nat (length par)))%Z by lia.
  rewrite !sq2p_add, sq2p_2. unfold ephase, sgn. destruct (parity x par); simpl; ring.
Qed.

(** ** the negation stage *)
Definition neg_step (g : graph) (nv : nat * nat) : graph :=
  if qeqb (phase g (fst nv)) 0%Qc then g else neg_gadget (fst nv) (snd nv) g.
Definition npair (nv : nat * nat) : list nat := [fst nv; snd nv].
Definition sgnph (g : graph) (n v : nat) : Qc := if qeqb (phase g n) 0%Qc then phase g v else qmod2 (- phase g v)%Qc.

Lemma neg_step_spec : forall g nv, zxok g -> gleaf g (fst nv) (snd nv) -> is_pauli (phase g (fst nv)) = true ->
  step_ok g (neg_step g nv) /\ same_frame g (neg_step g nv) /\ gadj (neg_step g nv) = gadj g /\
  (forall u, ~ In u (npair nv) -> phase (neg_step g nv) u = phase g u) /\
  phase (neg_step g nv) (fst nv) = 0%Qc /\ phase (neg_step g nv) (snd nv) = sgnph g (fst nv) (snd nv) /\
  (to_number (gscalar (neg_step g nv)) = (if qeqb (phase g (fst nv)) 0%Qc then C1 else cexp (phase g (snd nv))) * to_number (gscalar g)) /\
  forall P, pcl P -> allph P g -> allph P (neg_step g nv).
Proof.
  intros g [n v] ZX L PP. cbn [fst snd] in *. unfold neg_step, npair, sgnph. cbn [fst snd].
  assert (Nnv : v <> n).
  { destruct L as [_ [_ [E _]]]. intros ->. rewrite (zx_noloop g ZX) in E. discriminate. }
  destruct (qeqb (phase g n) 0%Qc) eqn:E.
  - apply (proj1 (qeqb_eq _ _)) in E. split; [apply step_ok_refl; auto|]. split; [apply same_frame_refl|].
    split; auto. split; auto. split; auto. split; auto. split; [ring|auto].
  - assert (phase g n = 1%Qc).
    { unfold is_pauli in PP. apply orb_true_iff in PP. rewrite !qeqb_eq in PP. destruct PP as [X|X]; auto. rewrite X in E. discriminate. }
    split; [apply neg_one; auto|]. split; [apply neg_frame|]. split; [reflexivity|].
    split. { intros u Hu. rewrite neg_phase. simpl in Hu. destruct (Nat.eqb_spec u n); [subst; tauto|]. destruct (Nat.eqb_spec u v); [subst; tauto|]. reflexivity. }
    split. { rewrite neg_phase, Nat.eqb_refl. reflexivity. }
    split. { rewrite neg_phase, Nat.eqb_refl. destruct (Nat.eqb_spec v n); [contradiction|]. reflexivity. }
    split. { change (gscalar (neg_gadget n v g)) with (s_add_phase (phase g v) (gscalar g)). apply add_phase_number. }
    intros P [PC [P2 P3]] AP u Hu. rewrite neg_phase. destruct (Nat.eqb u n); auto.
    destruct (Nat.eqb_spec u v); auto. apply P2. apply AP. apply (leaf_in g n v); auto. apply ZX.
Qed.

Lemma gleaf_frame : forall g g' n v, same_frame g g' -> gadj g' = gadj g -> gleaf g n v -> gleaf g' n v.
Proof.
  intros g g' n v F A. unfold gleaf, neighbors, edge_type. rewrite !(same_frame_vty g g') by auto. rewrite A. auto.
Qed.

Lemma neg_fold : forall l g, zxok g -> NoDup (flat_map npair l) ->
  (forall nv, In nv l -> gleaf g (fst nv) (snd nv) /\ is_pauli (phase g (fst nv)) = true) ->
  exists g', step_ok g g' /\ same_frame g g' /\ gadj g' = gadj g /\
  (forall u, ~ In u (flat_map npair l) -> phase g' u = phase g u) /\
  (forall nv, In nv l -> phase g' (fst nv) = 0%Qc /\ phase g' (snd nv) = sgnph g (fst nv) (snd nv)) /\
  (to_number (gscalar g') = cprod (fun nv => if qeqb (phase g (fst nv)) 0%Qc then C1 else cexp (phase g (snd nv))) l * to_number (gscalar g)) /\
  forall P, pcl P -> allph P g -> allph P g'.
Proof.
  induction l as [|nv l IH]; intros g ZX ND H.
  - exists g. split; [apply step_ok_refl; auto|]. split; [apply same_frame_refl|]. split; auto. split; auto.
    split; [intros ? []|]. split; [cbn [cprod]; ring|auto].
  - destruct (H nv (or_introl eq_refl)) as [L PP].
    destruct (neg_step_spec g nv ZX L PP) as [S1 [S2 [S3 [S4 [S5 [S6 [S7 S8]]]]]]].
    cbn [flat_map] in ND. destruct (nodup_app_inv _ _ _ ND) as [N1 [N2 N3]].
    assert (SP : forall m u, In m l -> In u (npair m) -> phase (neg_step g nv) u = phase g u).
    { intros m u Hm Hu. apply S4. intros X. apply (N3 u); auto. apply in_flat_map. eauto. }
    destruct (IH (neg_step g nv)) as [g' [T1 [T2 [T3 [T4 [T5 [T6 T7]]]]]]]; auto.
    { apply S1. }
    { intros m Hm. destruct (H m (or_intror Hm)) as [Lm Pm]. split; [apply (gleaf_frame g); auto|].
      rewrite (SP m); auto. unfold npair; simpl; auto. }
    exists g'. split; [eapply step_ok_trans; eauto|]. split; [eapply same_frame_trans; eauto|]. split; [congruence|].
    split.
    { intros u Hu. cbn [flat_map] in Hu. rewrite in_app_iff in Hu. rewrite T4, S4; tauto. }
    split.
    { intros m [<-|Hm].
      - rewrite !T4; auto; apply N3; unfold npair; simpl; auto.
      - destruct (T5 m Hm) as [X Y]. split; auto. rewrite Y. unfold sgnph.
        rewrite !(SP m) by (auto; unfold npair; simpl; auto). reflexivity. }
    split.
    { rewrite T6, S7. cbn [cprod].
      rewrite (cprod_ext _ _ (fun nv => if qeqb (phase g (fst nv)) 0%Qc then C1 else cexp (phase g (snd nv)))).
      - ring.
      - intros m Hm. rewrite !(SP m) by (auto; unfold npair; simpl; auto). reflexivity. }
    intros P PC AP. auto.
Qed.

(** ** collecting the gadgets *)
Lemma set_eqb_spec : forall a b, set_eqb a b = true <-> forall u, In u a <-> In u b.
Proof.
  intros a b. unfold set_eqb. rewrite andb_true_iff, !forallb_forall. split.
  - intros [H1 H2] u. split; intros H; [apply H1 in H|apply H2 in H]; apply nmem_spec; auto.
  - intros H. split; intros u Hu; apply nmem_spec; apply H; auto.
Qed.

Lemma par_append_perm : forall k n d, Permutation (flat_map snd (par_append k n d)) (n :: flat_map snd d).
Proof.
  induction d as [|[k' l] d IH]; simpl; auto. destruct (set_eqb k k'); simpl.
  - rewrite <- app_assoc. simpl. apply Permutation_sym, Permutation_middle.
  - eapply perm_trans; [apply Permutation_app_head; exact IH|]. apply Permutation_sym, Permutation_middle.
Qed.
Lemma par_append_in : forall k n d par gad, In (par,gad) (par_append k n d) ->
  In (par,gad) d \/ (par = k /\ gad = [n]) \/ exists l, In (par,l) d /\ gad = l ++ [n] /\ forall u, In u k <-> In u par.
Proof.
  induction d as [|[k' l] d IH]; simpl; intros par gad H.
  - destruct H as [[= <- <-]|[]]. auto.
  - destruct (set_eqb k k') eqn:E.
    + destruct H as [[= <- <-]|H]; auto. right; right. exists l. rewrite set_eqb_spec in E. auto.
    + destruct H as [[= <- <-]|H]; auto. destruct (IH par gad H) as [X|[X|[l' [X Y]]]]; auto.
      right; right. exists l'. auto.
Qed.

Record coll (g : graph) (st : dict nat * list (list nat * list nat)) : Prop := mkcoll {
  co_leaf : forall n v, dget n (fst st) = Some v -> neighbors g v = [n] /\ non_clifford (phase g v) = true /\
     is_pauli (phase g n) = true /\ ~ In n (ginputs g) /\ ~ In n (goutputs g);
  co_nd : NoDup (flat_map snd (snd st));
  co_in : forall n, In n (flat_map snd (snd st)) <-> dmem n (fst st) = true;
  co_par : forall par gad, In (par,gad) (snd st) -> gad <> [] /\ NoDup par /\
     forall n, In n gad -> forall u, In u par <-> In u (neighbors g n) /\ dget n (fst st) <> Some u
}.

Lemma collect_coll : forall g st v, wfg g -> coll g st -> coll g (gadget_collect g st v).
Proof.
  intros g [gd pa] v W C. unfold gadget_collect.
  destruct (non_clifford (phase g v)) eqn:NC; auto.
  destruct (neighbors g v) as [|n [|]] eqn:NB; auto.
  destruct (is_pauli (phase g n)) eqn:PN; cbn [negb]; auto.
  destruct (dmem n gd) eqn:DM; auto.
  destruct (nmem n (ginputs g) || nmem n (goutputs g)) eqn:IO; auto.
  apply orb_false_iff in IO. destruct IO as [I1 I2].
  assert (I1' : ~ In n (ginputs g)) by (rewrite <- nmem_spec; congruence).
  assert (I2' : ~ In n (goutputs g)) by (rewrite <- nmem_spec; congruence).
  destruct C as [C1 C2 C3 C4]. cbn [fst snd] in *.
  assert (NI : ~ In n (flat_map snd pa)) by (rewrite C3; congruence).
  constructor; cbn [fst snd].
  - intros n' v'. rewrite dget_dset. destruct (Nat.eqb_spec n' n) as [->|]; [intros [= <-]; auto|apply C1].
  - eapply Permutation_NoDup; [apply Permutation_sym, par_append_perm|]. constructor; auto.
  - intros n'. split.
    + intros H. eapply Permutation_in in H; [|apply par_append_perm]. unfold dmem. rewrite dget_dset.
      destruct H as [<-|H]; [rewrite Nat.eqb_refl; auto|]. destruct (Nat.eqb n' n); auto. apply C3 in H. exact H.
    + unfold dmem. rewrite dget_dset. intros H. apply (Permutation_in _ (Permutation_sym (par_append_perm _ _ _))).
      destruct (Nat.eqb_spec n' n) as [E|E]; [left; auto|right]. apply C3. exact H.
  - intros par gad H.
    assert (K : forall u, In u (filter (fun u => negb (Nat.eqb u v)) (neighbors g n)) <-> In u (neighbors g n) /\ Some v <> Some u).
    { intros u. rewrite filter_In. rewrite negb_true_iff, Nat.eqb_neq. intuition congruence. }
    assert (O : forall par l, In (par,l) pa -> forall n', In n' l -> n' <> n).
    { intros p l Hp n' Hn ->. apply NI. apply in_flat_map. exists (p,l). auto. }
    apply par_append_in in H. destruct H as [H|[[-> ->]|[l [H [-> EQ]]]]].
    + destruct (C4 _ _ H) as [X1 [X2 X3]]. split; auto. split; auto. intros n' Hn u. rewrite dget_dset.
      destruct (Nat.eqb_spec n' n) as [->|]; [exfalso; eapply O; eauto|]. auto.
    + split; [discriminate|]. split; [apply NoDup_filter, neighbors_nd; auto|].
      intros n' [<-|[]] u. rewrite dget_dset, Nat.eqb_refl. apply K.
    + destruct (C4 _ _ H) as [X1 [X2 X3]]. split; [destruct l; discriminate|]. split; auto.
      intros n' Hn u. rewrite dget_dset. apply in_app_iff in Hn.
      destruct (Nat.eqb_spec n' n) as [->|NE].
      * rewrite <- EQ. apply K.
      * destruct Hn as [Hn|[<-|[]]]; [|contradiction]. auto.
Qed.

Lemma collect_fold : forall g cands st, wfg g -> coll g st -> coll g (fold_left (gadget_collect g) cands st).
Proof. intros g cands. induction cands as [|v l IH]; simpl; intros; auto. apply IH; auto. apply collect_coll; auto. Qed.
Lemma coll_nil : forall g, coll g ([],[]).
Proof. intros g. constructor; simpl; try tauto; try discriminate; [constructor|]. intros n. split; [tauto|discriminate]. Qed.

(** ** emitting the matches *)
Definition gdl (gadgets : dict nat) (n : nat) : nat := match dget n gadgets with Some v => v | None => 0%nat end.
Definition sterm (g : graph) (gd : nat -> nat) (n : nat) : Qc :=
  if qeqb (phase g n) 0%Qc then phase g (gd n) else (- phase g (gd n))%Qc.
Definition emitm (g : graph) (gd : nat -> nat) (pg : list nat * list nat) : list gmatch :=
  match snd pg with
  | [n] => if qeqb (phase g n) 0%Qc then [] else [(gd n, n, (- phase g (gd n))%Qc, [], [])]
  | gad => match rev gad with
           | [] => []
           | n :: o => [(gd n, n, qmod2 (sumq (map (sterm g gd) gad)), rev o, map gd (rev o))]
           end
  end.
Definition nfac (g : graph) (gd : nat -> nat) (n : nat) : C := if qeqb (phase g n) 0%Qc then C1 else cexp (phase g (gd n)).
Definition emitk (g : graph) (gd : nat -> nat) (pg : list nat * list nat) : C :=
  cprod (nfac g gd) (snd pg) * sq2p (- ((Z.of_nat (length (fst pg)) - 1) * (Z.of_nat (length (snd pg)) - 1))).

Lemma leaves_foldM : forall gadgets gad acc, (forall n, In n gad -> dmem n gadgets = true) ->
  foldM (fun l n => let* v := gad_r gadgets n in Ok (l ++ [(n, v)])) gad acc = Ok (acc ++ map (fun n => (n, gdl gadgets n)) gad).
Proof.
  intros gadgets gad. induction gad as [|n l IH]; intros acc H; simpl; [rewrite app_nil_r; reflexivity|].
  assert (X := H n (or_introl eq_refl)). unfold gdl at 1. unfold gad_r, dmem in *.
  destruct (dget n gadgets) as [v|]; [|discriminate]. simpl. rewrite IH by (intros; apply H; simpl; auto).
  rewrite <- app_assoc. reflexivity.
Qed.

Lemma neg_scalars : forall g gd gad g0, (forall v, phase g0 v = phase g v) -> exists s,
  fold_left (fun g (nv : nat * nat) => let (n, v) := nv in
     if qeqb (phase g n) 0%Qc then g else on_scalar (s_add_phase (phase g v)) g) (map (fun n => (n, gd n)) gad) g0
  = on_scalar (fun _ => s) g0 /\ to_number s = cprod (nfac g gd) gad * to_number (gscalar g0).
Proof.
  intros g gd gad. induction gad as [|n l IH]; intros g0 H.
  - exists (gscalar g0). split; [destruct g0; reflexivity|]. cbn [cprod]; ring.
  - cbn [map fold_left cprod]. rewrite !H. unfold nfac at 1. destruct (qeqb (phase g n) 0%Qc).
    + destruct (IH g0 H) as [s [E N]]. exists s. split; auto. rewrite N. ring.
    + destruct (IH (on_scalar (s_add_phase (phase g (gd n))) g0)) as [s [E N]]; [exact H|].
      exists s. split; [exact E|]. rewrite N. simpl gscalar. rewrite add_phase_number. ring.
Qed.

Lemma emit_one : forall gadgets ms g0 g pg, snd pg <> [] -> (forall n, In n (snd pg) -> dmem n gadgets = true) ->
  (forall v, phase g v = phase g0 v) ->
  exists s, gadget_emit gadgets (ms, g) pg = Ok (ms ++ emitm g0 (gdl gadgets) pg, on_scalar (fun _ => s) g) /\
  to_number s = emitk g0 (gdl gadgets) pg * to_number (gscalar g).
Proof.
  intros gadgets ms g0 g [par gad] NE HG HP. cbn [snd] in *. unfold gadget_emit, emitm, emitk. cbn [fst snd].
  destruct gad as [|n [|n2 l]]; [congruence| |].
  - assert (X := HG n (or_introl eq_refl)). unfold gad_r, dmem, gdl, nfac in *. cbn [cprod].
    destruct (dget n gadgets) as [v|] eqn:D; [|discriminate]. cbn [of_opt bind]. rewrite !HP.
    replace (- ((Z.of_nat (length par) - 1) * (Z.of_nat (length [n]) - 1)))%Z with 0%Z by (simpl; lia).
    rewrite sq2p_0.
    destruct (qeqb (phase g0 n) 0%Qc) eqn:E.
    + exists (gscalar g). rewrite app_nil_r. split; [destruct g; reflexivity|]. ring.
    + exists (s_add_phase (phase g0 v) (gscalar g)). split.
      * change (phase (on_scalar (s_add_phase (phase g0 v)) g) v) with (phase g v). rewrite HP. reflexivity.
      * rewrite add_phase_number. ring.
  - set (gad := n :: n2 :: l) in *. rewrite leaves_foldM by auto. cbn [bind app].
    set (lv := map (fun n => (n, gdl gadgets n)) gad).
    destruct (neg_scalars g0 (gdl gadgets) gad g HP) as [s [E N]]. fold lv in E. rewrite E.
    assert (TM : map (fun nv : nat * nat => let (n, v) := nv in if qeqb (phase g n) 0%Qc then phase g v else (- phase g v)%Qc) lv
      = map (sterm g0 (gdl gadgets)) gad).
    { unfold lv. rewrite map_map. apply map_ext. intros a. unfold sterm. rewrite !HP. reflexivity. }
    rewrite TM. unfold lv. rewrite <- map_rev.
    exists (s_add_power (- ((Z.of_nat (length par) - 1) * (Z.of_nat (length gad) - 1))) s). split.
    + destruct (rev gad) as [|k o] eqn:R.
      * apply (f_equal (@rev nat)) in R. rewrite rev_involutive in R. discriminate.
      * cbn [map]. rewrite <- map_rev, !map_map. cbn [fst snd]. rewrite map_id. reflexivity.
    + rewrite add_power_number, N. ring.
Qed.

Lemma emit_all : forall gadgets g0 pa ms g, (forall pg, In pg pa -> snd pg <> [] /\ forall n, In n (snd pg) -> dmem n gadgets = true) ->
  (forall v, phase g v = phase g0 v) ->
  exists s, foldM (gadget_emit gadgets) pa (ms, g) = Ok (ms ++ flat_map (emitm g0 (gdl gadgets)) pa, on_scalar (fun _ => s) g) /\
  to_number s = cprod (emitk g0 (gdl gadgets)) pa * to_number (gscalar g).
Proof.
  intros gadgets g0 pa. induction pa as [|pg pa IH]; intros ms g H HP.
  - exists (gscalar g). simpl. rewrite app_nil_r. split; [destruct g; reflexivity|ring].
  - destruct (H pg (or_introl eq_refl)) as [NE HG].
    destruct (emit_one gadgets ms g0 g pg NE HG HP) as [s [E N]].
    destruct (IH (ms ++ emitm g0 (gdl gadgets) pg) (on_scalar (fun _ => s) g)) as [s' [E' N']].
    + intros; apply H; simpl; auto.
    + exact HP.
    + exists s'. cbn [foldM]. rewrite E. cbn [bind flat_map cprod]. rewrite E', <- app_assoc. split; [reflexivity|].
      rewrite N'. simpl gscalar. rewrite N. ring.
Qed.

(** ** applying the matches *)
Definition gmv' (m : gmatch) : list nat := let '(v, n, p, og, ot) := m in [v; n].
Definition gmp (m : gmatch) : Qc := let '(v, n, p, og, ot) := m in p.
Definition gmr (m : gmatch) : list nat := let '(v, n, p, og, ot) := m in og ++ ot.
Definition mstep (g : graph) (m : gmatch) : graph := let '(v, n, p, og, ot) := m in set_phase n 0%Qc (set_phase v p g).

Lemma merge_fold : forall ms g rem,
  fold_left (fun (st : graph * list nat) (m : gmatch) => let '(g, rem) := st in let '(v, n, p, og, ot) := m in
      (set_phase n 0%Qc (set_phase v p g), rem ++ og ++ ot)) ms (g, rem)
  = (fold_left mstep ms g, rem ++ flat_map gmr ms).
Proof.
  induction ms as [|[[[[v n] p] og] ot] ms IH]; intros g rem; simpl; [rewrite app_nil_r; reflexivity|].
  rewrite IH, <- app_assoc. reflexivity.
Qed.

Lemma mstep_fold : forall ms g, wfg g -> NoDup (flat_map gmv' ms) -> (forall v, In v (flat_map gmv' ms) -> In v (vertices g)) ->
  let g' := fold_left mstep ms g in
  wfg g' /\ same_frame g g' /\ gadj g' = gadj g /\ gscalar g' = gscalar g /\
  (forall u, ~ In u (flat_map gmv' ms) -> phase g' u = phase g u) /\
  (forall v n p og ot, In (v,n,p,og,ot) ms -> phase g' v = qmod2 p /\ phase g' n = 0%Qc).
Proof.
  induction ms as [|[[[[v n] p] og] ot] ms IH]; intros g W ND HV.
  - simpl. split; auto. split; [apply same_frame_refl|]. split; auto. split; auto. split; auto. intros; tauto.
  - cbn [flat_map] in ND. destruct (nodup_app_inv _ _ _ ND) as [N1 [N2 N3]].
    assert (NV : v <> n) by (inversion N1; subst; simpl in *; intuition).
    cbn [fold_left]. set (g1 := mstep g _).
    assert (W1 : wfg g1).
    { unfold g1, mstep. apply set_phase_wfg; [apply set_phase_wfg; auto; apply HV|apply HV]; simpl; auto. }
    assert (F1 : same_frame g g1).
    { unfold g1, mstep. eapply same_frame_trans; [apply set_phase_frame|apply set_phase_frame]. }
    destruct (IH g1 W1 N2) as [X1 [X2 [X3 [X4 [X5 X6]]]]].
    { intros u Hu. rewrite (proj1 F1). apply HV. simpl. auto. }
    cbv zeta. split; [exact X1|]. split; [exact (same_frame_trans _ _ _ F1 X2)|]. split; [exact X3|]. split; [exact X4|].
    split.
    + intros u Hu. simpl in Hu. rewrite X5 by tauto. unfold g1, mstep. rewrite !phase_set_phase.
      destruct (Nat.eqb_spec u n); [subst; tauto|]. destruct (Nat.eqb_spec u v); [subst; tauto|]. reflexivity.
    + intros v' n' p' og' ot' [E|H]; [|eapply X6; eauto]. injection E as <- <- <- <- <-.
      rewrite !X5 by (apply N3; simpl; auto). unfold g1, mstep. rewrite !phase_set_phase, !Nat.eqb_refl.
      destruct (Nat.eqb_spec v n); [contradiction|]. rewrite qmod2_0. auto.
Qed.

(** ** invariants used by gadget fusion *)
(** boundary vertices have at most one neighbour, no phase, and are inputs or outputs *)
Record dok (g : graph) : Prop := mkdok {
  dk_zx : zxok g;
  dk_deg : forall b u w, isB g b = true -> edge_type g b u <> None -> edge_type g b w <> None -> u = w;
  dk_ph : forall b, In b (vertices g) -> isB g b = true -> phase g b = 0%Qc;
  dk_io : forall b, In b (vertices g) -> isB g b = true -> In b (ginputs g) \/ In b (goutputs g)
}.
Definition axle (g : graph) (n : nat) : Prop :=
  vty g n = ZSP /\ is_pauli (phase g n) = true /\ exists v, gleaf g n v /\ non_clifford (phase g v) = true.
Definition interior (g : graph) (n : nat) : Prop := forall u, In u (neighbors g n) -> isB g u = false.
(** no two interior axles are adjacent (a pivot would apply to them) *)
Definition gsep (g : graph) : Prop :=
  forall n n', axle g n -> axle g n' -> interior g n -> interior g n' -> edge_type g n n' = None.

Lemma pauli_clifford : forall p, is_pauli p = true -> non_clifford p = false.
Proof.
  intros p H. unfold is_pauli in H. apply orb_true_iff in H. rewrite !qeqb_eq in H. destruct H as [-> | ->]; reflexivity.
Qed.

Lemma cprod_flat : forall A B (f : B -> C) (h : A -> list B) l, cprod f (flat_map h l) = cprod (fun a => cprod f (h a)) l.
Proof. induction l as [|a l IH]; cbn [flat_map cprod]; [reflexivity|]. rewrite cprod_app, IH. reflexivity. Qed.
Lemma flat_map_flat_map : forall A B D (f : B -> list D) (h : A -> list B) l, flat_map f (flat_map h l) = flat_map (fun a => flat_map f (h a)) l.
Proof. induction l as [|a l IH]; simpl; auto. rewrite flat_map_app, IH. reflexivity. Qed.
Lemma flat_map_filter : forall A B (f : A -> list B) (p : A -> bool) l, (forall a, In a l -> p a = false -> f a = []) ->
  flat_map f (filter p l) = flat_map f l.
Proof.
  induction l as [|a l IH]; simpl; intros H; auto. destruct (p a) eqn:E; simpl; rewrite IH by auto; auto.
  rewrite (H a); auto.
Qed.
Lemma cprod_filter : forall A (f : A -> C) (p : A -> bool) l, (forall a, In a l -> p a = false -> f a = C1) ->
  cprod f (filter p l) = cprod f l.
Proof.
  induction l as [|a l IH]; intros H; auto. cbn [filter]. assert (IH' := IH (fun b Hb => H b (or_intror Hb))).
  destruct (p a) eqn:E; cbn [cprod]; rewrite IH'; auto. rewrite (H a); simpl; auto. ring.
Qed.
Lemma nodup_flat_incl : forall A (f h : A -> list nat) l, NoDup (flat_map f l) ->
  (forall a, In a l -> NoDup (h a) /\ forall u, In u (h a) -> In u (f a)) -> NoDup (flat_map h l).
Proof.
  induction l as [|a l IH]; simpl; intros N H; [constructor|].
  destruct (nodup_app_inv _ _ _ N) as [N1 [N2 N3]]. apply nodup_app.
  - apply H; auto.
  - apply IH; auto.
  - intros u Hu X. apply in_flat_map in X. destruct X as [b [Hb X]]. apply (N3 u); [apply (H a); auto|].
    apply in_flat_map. exists b. split; auto. apply (H b); auto.
Qed.
Lemma nodup_filter_flat : forall A (f : A -> list nat) p l, NoDup (flat_map f l) -> NoDup (flat_map f (filter p l)).
Proof.
  induction l as [|a l IH]; simpl; intros N; auto. destruct (nodup_app_inv _ _ _ N) as [N1 [N2 N3]].
  destruct (p a); simpl; auto. apply nodup_app; auto. intros u Hu X. apply (N3 u Hu). apply in_flat_map in X.
  destruct X as [b [Hb X]]. apply in_flat_map. exists b. apply filter_In in Hb. tauto.
Qed.

Lemma nodup_npair : forall (gd : nat -> nat) l, NoDup l -> (forall a b, In a l -> In b l -> gd a = gd b -> a = b) ->
  (forall a b, In a l -> In b l -> gd a <> b) -> NoDup (flat_map npair (map (fun n => (n, gd n)) l)).
Proof.
  intros gd l N. induction N as [|a l Ha N IH]; intros I D; simpl; [constructor|].
  constructor; [|constructor].
  - intros [X|X]; [apply (D a a); simpl; auto|]. apply in_flat_map in X. destruct X as [m [Hm X]].
    apply in_map_iff in Hm. destruct Hm as [b [<- Hb]]. destruct X as [X|[X|[]]]; simpl in X.
    + subst; contradiction.
    + apply (D b a); simpl; auto.
  - intros X. apply in_flat_map in X. destruct X as [m [Hm X]].
    apply in_map_iff in Hm. destruct Hm as [b [<- Hb]]. destruct X as [X|[X|[]]]; simpl in X.
    + apply (D a b); simpl; auto.
    + assert (b = a) by (apply I; simpl; auto). subst; contradiction.
  - apply IH; intros; [apply I|apply D]; simpl; auto.
Qed.

Lemma integL_ext_k : forall k g g' L x, to_number (gscalar g') = k * to_number (gscalar g) ->
  (forall v, In v L -> vty g' v = vty g v /\ phase g' v = phase g v) ->
  (forall u v, edge_type g' u v = edge_type g u v) -> (forall v, vty g' v = vty g v) ->
  integL L g' x = integL L g x * k.
Proof.
  intros k g g' L x S V E T. unfold integL. rewrite S.
  rewrite (cprod_ext _ (fun v => pw g' v (x v)) (fun v => pw g v (x v))).
  2:{ intros v Hv. unfold pw, isB. destruct (V v Hv) as [-> ->]. reflexivity. }
  rewrite (pprod_ext L (fun u v => ew g' u v (x u) (x v)) (fun u v => ew g u v (x u) (x v))).
  2:{ intros u v _ _. unfold ew, isX. rewrite !T, E. reflexivity. }
  ring.
Qed.

Lemma qmod2_add_l : forall a b, qmod2 (qmod2 a + b)%Qc = qmod2 (a + b)%Qc.
Proof.
  intros. destruct (qmod2_diff a) as [n E]. rewrite E at 2.
  replace (qmod2 a + Qcz (2*n) + b)%Qc with (qmod2 a + b + Qcz (2*n))%Qc by ring. rewrite qmod2_shift. reflexivity.
Qed.
Lemma qmod2_add_r : forall a b, qmod2 (a + qmod2 b)%Qc = qmod2 (a + b)%Qc.
Proof. intros. rewrite Qcplus_comm, qmod2_add_l, Qcplus_comm. reflexivity. Qed.

Lemma sumq_cons : forall a l, sumq (a :: l) = (a + sumq l)%Qc.
Proof.
  intros a l. unfold sumq. simpl.
  assert (H : forall l x, fold_left Qcplus l x = (x + fold_left Qcplus l 0)%Qc).
  { clear. induction l as [|b l IH]; intros x; simpl; [ring|]. rewrite IH, (IH (0 + b)%Qc). ring. }
  rewrite H. ring.
Qed.
Lemma ephase_sumq : forall A (f : A -> Qc) l b, ephase (sumq (map f l)) b = cprod (fun a => ephase (f a) b) l.
Proof.
  induction l as [|a l IH]; intros b; [apply ephase_0|]. cbn [map cprod]. rewrite sumq_cons, ephase_mult, IH. reflexivity.
Qed.
Lemma pcl_sumq : forall A (P : Qc -> Prop) (f : A -> Qc) l, pcl P -> (forall a, In a l -> P (f a) \/ P (- f a)%Qc) -> P (qmod2 (sumq (map f l))).
Proof.
  intros A P f l [PC [PN P0]]. induction l as [|a l IH]; intros H.
  - simpl. replace (qmod2 (sumq [])) with 0%Qc by reflexivity. exact P0.
  - cbn [map]. rewrite sumq_cons.
    assert (IH' := IH (fun b Hb => H b (or_intror Hb))).
    destruct (H a (or_introl eq_refl)) as [Q|Q].
    + assert (E : qmod2 (f a + sumq (map f l))%Qc = qmod2 (qmod2 (sumq (map f l)) + f a)%Qc).
      { rewrite qmod2_add_l. f_equal. ring. }
      rewrite E. apply PC; auto.
    + apply PN in Q. rewrite Qcopp_involutive in Q.
      assert (E : qmod2 (f a + sumq (map f l))%Qc = qmod2 (qmod2 (sumq (map f l)) + qmod2 (f a))%Qc).
      { rewrite qmod2_add_l, qmod2_add_r. f_equal. ring. }
      rewrite E. apply PC; auto.
Qed.

Section Fuse.
  Variables (g : graph) (gadgets : dict nat) (pa : list (list nat * list nat)).
  Hypothesis DK : dok g.
  Hypothesis GL : glike g.
  Hypothesis GS : gsep g.
  Hypothesis CO : coll g (gadgets, pa).
  Let gd := gdl gadgets.
  Let ZX := dk_zx g DK.
  Let W := zx_wf g ZX.
  Let NL := zx_noloop g ZX.
  Let ax := flat_map snd pa.

  Lemma fu_gd : forall n, In n ax -> dget n gadgets = Some (gd n).
  Proof.
    intros n H. apply (co_in _ _ CO) in H. cbn [fst] in H. unfold gd, gdl. unfold dmem in H. destruct (dget n gadgets); [reflexivity|discriminate].
  Qed.
  Lemma fu_leaf : forall n, In n ax -> gleaf g n (gd n) /\ non_clifford (phase g (gd n)) = true /\ is_pauli (phase g n) = true.
  Proof.
    intros n H. destruct (co_leaf _ _ CO n (gd n) (fu_gd n H)) as [N [NC [PP [I1 I2]]]].
    assert (E : edge_type g (gd n) n <> None) by (apply neighbors_spec; rewrite N; simpl; auto).
    destruct (edge_type g (gd n) n) as [e|] eqn:EE; [|congruence].
    assert (Iv := edge_in_l g (gd n) n e EE). assert (In_ := edge_in_r g (gd n) n e W EE).
    destruct GL as [G1 G2].
    assert (Tn : vty g n = ZSP).
    { destruct (G1 n In_) as [T|T]; auto. exfalso. destruct (dk_io g DK n In_); auto. unfold isB. rewrite T. reflexivity. }
    assert (Tv : vty g (gd n) = ZSP).
    { destruct (G1 _ Iv) as [T|T]; auto. exfalso. rewrite (dk_ph g DK (gd n) Iv) in NC; [discriminate NC|]. unfold isB. rewrite T. reflexivity. }
    split; [|auto]. split; auto. split; auto. split; auto. rewrite EE. f_equal. eapply G2; eauto.
  Qed.
  Lemma fu_inj : forall a b, In a ax -> In b ax -> gd a = gd b -> a = b.
  Proof.
    intros a b Ha Hb E. destruct (fu_leaf a Ha) as [[_ [_ [_ A]]] _]. destruct (fu_leaf b Hb) as [[_ [_ [_ B]]] _].
    rewrite E, B in A. injection A as ->. reflexivity.
  Qed.
  Lemma fu_dis : forall a b, In a ax -> In b ax -> gd a <> b.
  Proof.
    intros a b Ha Hb E. destruct (fu_leaf a Ha) as [_ [A _]]. destruct (fu_leaf b Hb) as [_ [_ B]].
    rewrite <- E in B. apply pauli_clifford in B. congruence.
  Qed.

  Definition gpairs (pg : list nat * list nat) : list (nat * nat) := map (fun n => (n, gd n)) (snd pg).
  Definition gall (pg : list nat * list nat) : list nat := flat_map npair (gpairs pg).
  Lemma gpairs_flat : forall l, flat_map gpairs l = map (fun n => (n, gd n)) (flat_map snd l).
  Proof. induction l as [|a l IH]; simpl; auto. rewrite map_app, IH. reflexivity. Qed.
  Lemma fu_nd : NoDup (flat_map gall pa).
  Proof.
    unfold gall. rewrite <- (flat_map_flat_map _ _ _ npair gpairs), gpairs_flat. apply nodup_npair.
    - exact (co_nd _ _ CO).
    - exact fu_inj.
    - exact fu_dis.
  Qed.
  Lemma ax_in : forall pg n, In pg pa -> In n (snd pg) -> In n ax.
  Proof. intros. unfold ax. apply in_flat_map. eauto. Qed.
  Lemma gall_in : forall pg u, In u (gall pg) <-> exists n, In n (snd pg) /\ (u = n \/ u = gd n).
  Proof.
    intros pg u. unfold gall, gpairs. rewrite in_flat_map. split.
    - intros [m [Hm Hu]]. apply in_map_iff in Hm. destruct Hm as [n [<- Hn]]. exists n. simpl in Hu. intuition.
    - intros [n [Hn H]]. exists (n, gd n). split; [apply in_map_iff; eauto|]. simpl. intuition.
  Qed.
  Lemma fu_par : forall par gad n u, In (par,gad) pa -> In n gad -> (In u par <-> In u (neighbors g n) /\ u <> gd n).
  Proof.
    intros par gad n u Hp Hn. destruct (co_par _ _ CO par gad Hp) as [_ [_ X]]. rewrite (X n Hn).
    cbn [fst]. rewrite (fu_gd n) by (eapply ax_in; [exact Hp|exact Hn]). intuition congruence.
  Qed.

  (** merged groups *)
  Definition mg := filter (fun pg : list nat * list nat => Nat.leb 2 (length (snd pg))) pa.
  Lemma mg_in : forall pg, In pg mg <-> In pg pa /\ (2 <= length (snd pg))%nat.
  Proof. intros pg. unfold mg. rewrite filter_In, Nat.leb_le. tauto. Qed.

  Lemma mg_interior : forall pg n, In pg mg -> In n (snd pg) -> interior g n.
  Proof.
    intros [par gad] n Hm Hn u Hu. apply mg_in in Hm. destruct Hm as [Hp Hl]. cbn [snd] in *.
    destruct (isB g u) eqn:B; auto. exfalso.
    assert (An := ax_in _ _ Hp Hn).
    assert (Up : In u par).
    { apply (fu_par par gad n u Hp Hn). split; auto. intros ->. destruct (fu_leaf n An) as [[_ [T _]] _]. unfold isB in B. rewrite T in B. discriminate. }
    assert (NDg : NoDup gad).
    { assert (X := co_nd _ _ CO). cbn [snd] in X. clear - X Hp. induction pa as [|a l IH]; simpl in *; [contradiction|].
      destruct (nodup_app_inv _ _ _ X) as [N1 [N2 _]]. destruct Hp as [->|Hp]; auto. }
    assert (exists n2, In n2 gad /\ n2 <> n) as [n2 [Hn2 D]].
    { destruct gad as [|a [|b l]]; simpl in Hl; try lia. inversion NDg; subst. simpl in *.
      destruct (Nat.eq_dec a n); [exists b; split; auto; intros ->; subst; tauto|exists a; auto]. }
    apply (fu_par par gad n2 u Hp Hn2) in Up. destruct Up as [Up _].
    apply D. apply (dk_deg g DK u); auto; rewrite (wf_sym g W); apply neighbors_spec; auto.
  Qed.

  Lemma mg_axle : forall pg n, In pg pa -> In n (snd pg) -> axle g n.
  Proof.
    intros pg n Hp Hn. destruct (fu_leaf n (ax_in _ _ Hp Hn)) as [L [NC PP]]. split; [apply L|]. split; auto. exists (gd n). auto.
  Qed.

  (** no edges between distinct merged gadgets *)
  Lemma mg_axles : forall pg pg' n n', In pg mg -> In pg' mg -> In n (snd pg) -> In n' (snd pg') -> edge_type g n n' = None.
  Proof.
    intros pg pg' n n' Hm Hm' Hn Hn'. apply GS; eauto using mg_interior.
    - apply mg_in in Hm. eapply mg_axle; [apply Hm|auto].
    - apply mg_in in Hm'. eapply mg_axle; [apply Hm'|auto].
  Qed.
  Lemma mg_pairs_in : forall m, In m (flat_map gpairs mg) -> exists pg, In pg mg /\ In (fst m) (snd pg) /\ snd m = gd (fst m).
  Proof.
    intros m H. apply in_flat_map in H. destruct H as [pg [Hm H]]. apply in_map_iff in H. destruct H as [n [<- Hn]].
    exists pg. auto.
  Qed.
  Lemma leaf_edge : forall n u, In n ax -> edge_type g (gd n) u <> None -> u = n.
  Proof.
    intros n u Hn H. apply neighbors_spec in H. destruct (fu_leaf n Hn) as [[_ [_ [_ N]]] _]. rewrite N in H. destruct H as [<-|[]]; auto.
  Qed.
  Lemma mg_apart : forall a b, In a (flat_map gpairs mg) -> In b (flat_map gpairs mg) -> a <> b -> apart g npair a b.
  Proof.
    intros a b Ha Hb D. destruct (mg_pairs_in a Ha) as [pa1 [M1 [I1 E1]]]. destruct (mg_pairs_in b Hb) as [pb1 [M2 [I2 E2]]].
    destruct a as [n v], b as [n' v']. cbn [fst snd] in *. subst v v'.
    assert (D' : n <> n') by congruence.
    assert (A1 : In n ax) by (apply (ax_in pa1); auto; apply mg_in in M1; tauto).
    assert (A2 : In n' ax) by (apply (ax_in pb1); auto; apply mg_in in M2; tauto).
    intros u w Hu Hw. destruct (edge_type g u w) eqn:E; auto. exfalso.
    destruct Hu as [<-|[<-|[]]], Hw as [<-|[<-|[]]]; cbn [fst snd] in E.
    - rewrite (mg_axles pa1 pb1) in E by auto. discriminate.
    - rewrite (wf_sym g W) in E. apply D'. apply (leaf_edge n'); auto. congruence.
    - apply D'. symmetry. apply (leaf_edge n); auto. congruence.
    - assert (gd n' = n) by (apply leaf_edge; auto; congruence). apply (fu_dis n' n); auto.
  Qed.

  Let A := flat_map gall mg.
  Lemma A_nd : NoDup A.
  Proof. unfold A, mg. apply nodup_filter_flat. apply fu_nd. Qed.
  Lemma A_pairs : A = flat_map npair (flat_map gpairs mg).
  Proof. unfold A, gall. rewrite flat_map_flat_map. reflexivity. Qed.
  Lemma A_in : forall u, In u A -> exists pg n, In pg mg /\ In n (snd pg) /\ (u = n \/ u = gd n).
  Proof. intros u H. unfold A in H. apply in_flat_map in H. destruct H as [pg [Hm H]]. apply gall_in in H. destruct H as [n [X Y]]. eauto. Qed.
  Lemma A_ok : forall u, In u A -> In u (vertices g) /\ isB g u = false.
  Proof.
    intros u H. destruct (A_in u H) as [pg [n [Hm [Hn E]]]]. apply mg_in in Hm.
    destruct (fu_leaf n (ax_in pg n (proj1 Hm) Hn)) as [L _]. destruct (leaf_in g n (gd n) W L). destruct L as [L1 [L2 _]].
    unfold isB. destruct E as [-> | ->]; [rewrite L1|rewrite L2]; auto.
  Qed.

  Let core := keep A g.
  Lemma par_core : forall par gad n u, In (par,gad) mg -> In n gad -> In u par ->
    In u core /\ vty g u = ZSP /\ edge_type g n u = Some HADAMARD.
  Proof.
    intros par gad n u Hm Hn Hu. assert (Hp := proj1 (proj1 (mg_in _) Hm)).
    assert (An := ax_in _ _ Hp Hn).
    apply (fu_par par gad n u Hp Hn) in Hu. destruct Hu as [Hu Nu].
    assert (Iu := neighbors_in g n u W Hu). assert (B := mg_interior _ _ Hm Hn u Hu).
    assert (T : vty g u = ZSP).
    { destruct (proj1 GL u Iu) as [T|T]; auto. unfold isB in B. rewrite T in B. discriminate. }
    split; [|split; auto].
    - apply in_keep. split; auto. intros X. destruct (A_in u X) as [pg' [n' [Hm' [Hn' [-> | ->]]]]].
      + apply neighbors_spec in Hu. apply Hu. apply (mg_axles (par,gad) pg'); auto.
      + apply Nu. f_equal. apply neighbors_spec in Hu. rewrite (wf_sym g W) in Hu. symmetry. apply (leaf_edge n'); auto.
        apply (ax_in pg'); auto. apply mg_in in Hm'; tauto.
    - apply neighbors_spec in Hu. destruct (edge_type g n u) as [e|] eqn:E; [|congruence]. f_equal.
      apply (proj2 GL n u e); auto. apply fu_leaf; auto.
  Qed.

  (** the value of a merged gadget in any graph of the same shape *)
  Lemma fu_value : forall h par gad n x, same_frame g h -> gadj h = gadj g -> wfg h -> noloop h ->
    In (par,gad) mg -> In n gad -> phase h n = 0%Qc ->
    sumv [n; gd n] (loc h [n; gd n] core) x = sq2p (1 - Z.of_nat (length par)) * ephase (phase h (gd n)) (parity x par).
  Proof.
    intros h par gad n x F AD Wh NLh Hm Hn P0. assert (Hp := proj1 (proj1 (mg_in _) Hm)).
    assert (An := ax_in _ _ Hp Hn).
    assert (ET : forall a b, edge_type h a b = edge_type g a b) by (intros; unfold edge_type; rewrite AD; reflexivity).
    assert (NB : neighbors h n = neighbors g n) by (unfold neighbors; rewrite AD; reflexivity).
    assert (InA : forall u, u = n \/ u = gd n -> In u A).
    { intros u Hu. unfold A. apply in_flat_map. exists (par,gad). split; auto. apply gall_in. eauto. }
    apply gadget_local; auto.
    - apply keep_nd; auto.
    - apply (gleaf_frame g); auto. apply fu_leaf; auto.
    - intros X. apply in_keep in X. apply X. apply InA; auto.
    - intros X. apply in_keep in X. apply X. apply InA; auto.
    - apply (co_par _ _ CO par gad Hp).
    - intros u. rewrite NB. apply (fu_par par gad); auto.
    - intros u Hu. rewrite ET, (same_frame_vty g h) by auto. apply (par_core par gad); auto.
  Qed.

  (** what is emitted for one group *)
  Lemma emit_single : forall pg, In pg pa -> (length (snd pg) < 2)%nat -> exists n, snd pg = [n] /\
    emitm g gd pg = if qeqb (phase g n) 0%Qc then [] else [(gd n, n, (- phase g (gd n))%Qc, [], [])].
  Proof.
    intros [par gad] Hp Hl. destruct (co_par _ _ CO par gad Hp) as [NE _]. cbn [snd] in *.
    destruct gad as [|n [|b l]]; simpl in Hl; try lia; [congruence|]. exists n. auto.
  Qed.
  Definition klast (pg : list nat * list nat) : nat := last (snd pg) 0%nat.
  Definition kinit (pg : list nat * list nat) : list nat := removelast (snd pg).
  Lemma mg_split : forall pg, In pg mg -> snd pg = kinit pg ++ [klast pg].
  Proof. intros pg H. apply mg_in in H. apply app_removelast_last. intros E. rewrite E in H. simpl in H. lia. Qed.
  Lemma emit_mg : forall pg, In pg mg ->
    emitm g gd pg = [(gd (klast pg), klast pg, qmod2 (sumq (map (sterm g gd) (snd pg))), kinit pg, map gd (kinit pg))].
  Proof.
    intros pg H. assert (S := mg_split pg H). apply mg_in in H. unfold emitm.
    assert (R : rev (snd pg) = klast pg :: rev (kinit pg)) by (rewrite S, rev_app_distr; reflexivity).
    destruct (snd pg) as [|a [|b l]] eqn:E; simpl in H; try lia. rewrite R, rev_involutive. reflexivity.
  Qed.
  Lemma pa_cases : forall pg, In pg pa -> In pg mg \/ (length (snd pg) < 2)%nat.
  Proof. intros pg H. destruct (le_lt_dec 2 (length (snd pg))); auto. left. apply mg_in. auto. Qed.

  Lemma emitted_nd : NoDup (flat_map gmv' (flat_map (emitm g gd) pa)).
  Proof.
    rewrite flat_map_flat_map. apply (nodup_flat_incl _ gall); [apply fu_nd|].
    intros pg Hp. destruct (pa_cases pg Hp) as [Hm|Hl].
    - rewrite emit_mg by auto. cbn [flat_map gmv' app].
      assert (In (klast pg) (snd pg)) by (rewrite (mg_split pg Hm); apply in_app_iff; simpl; auto).
      split.
      + constructor; [|constructor; [simpl; tauto|constructor]]. intros [X|[]].
        apply (fu_dis (klast pg) (klast pg)); eauto using ax_in.
      + intros u Hu. apply gall_in. exists (klast pg). split; auto. simpl in Hu. intuition.
    - destruct (emit_single pg Hp Hl) as [n [E1 E2]]. rewrite E2. destruct (qeqb _ _); cbn [flat_map gmv' app].
      + split; [constructor|intros u []].
      + assert (In n (snd pg)) by (rewrite E1; simpl; auto). split.
        * constructor; [|constructor; [simpl; tauto|constructor]]. intros [X|[]]. apply (fu_dis n n); eauto using ax_in.
        * intros u Hu. apply gall_in. exists n. split; auto. simpl in Hu. intuition.
  Qed.
  Lemma emitted_in : forall u, In u (flat_map gmv' (flat_map (emitm g gd) pa)) -> exists pg, In pg pa /\ In u (gall pg).
  Proof.
    intros u Hu. rewrite flat_map_flat_map in Hu. apply in_flat_map in Hu. destruct Hu as [pg [Hp Hu]]. exists pg. split; auto.
    apply gall_in. destruct (pa_cases pg Hp) as [Hm|Hl].
    - rewrite emit_mg in Hu by auto. exists (klast pg). rewrite (mg_split pg Hm) at 1. rewrite in_app_iff. simpl in *. intuition.
    - destruct (emit_single pg Hp Hl) as [n [E1 E2]]. rewrite E2 in Hu. exists n. rewrite E1. destruct (qeqb _ _); simpl in *; intuition.
  Qed.
  Lemma gall_uniq : forall pg pg' u, In pg pa -> In pg' pa -> In u (gall pg) -> In u (gall pg') -> pg = pg'.
  Proof. intros pg pg' u. apply (nodup_flat_uniq _ gall pa). apply fu_nd. Qed.

  Lemma rem_eq : flat_map gmr (flat_map (emitm g gd) pa) = flat_map (fun pg => kinit pg ++ map gd (kinit pg)) mg.
  Proof.
    rewrite flat_map_flat_map. unfold mg. rewrite <- (flat_map_filter _ _ _ (fun pg => Nat.leb 2 (length (snd pg)))).
    - fold mg. assert (H : forall l, (forall pg, In pg l -> In pg mg) ->
        flat_map (fun a => flat_map gmr (emitm g gd a)) l = flat_map (fun pg => kinit pg ++ map gd (kinit pg)) l).
      { induction l as [|a l IH]; intros H; simpl; auto. rewrite IH by (intros; apply H; simpl; auto).
        rewrite emit_mg by (apply H; simpl; auto). simpl. rewrite app_nil_r. reflexivity. }
      apply H. auto.
    - intros pg Hp E. apply Nat.leb_gt in E. destruct (emit_single pg Hp E) as [n [_ ->]]. destruct (qeqb _ _); reflexivity.
  Qed.

  Lemma npair_perm : forall l, Permutation (flat_map npair (map (fun n => (n, gd n)) l)) (l ++ map gd l).
  Proof.
    induction l as [|a l IH]; simpl; auto. constructor. eapply perm_trans; [apply perm_skip; exact IH|]. apply Permutation_middle.
  Qed.
  Lemma A_perm : Permutation A (flat_map gmr (flat_map (emitm g gd) pa) ++ flat_map (fun pg => [klast pg; gd (klast pg)]) mg).
  Proof.
    rewrite rem_eq. unfold A. eapply perm_trans; [|apply flat_map_app_perm].
    apply flat_map_perm_ext. intros pg Hm. unfold gall, gpairs. rewrite (mg_split pg Hm) at 1.
    rewrite map_app, flat_map_app. simpl. apply Permutation_app_tail. apply npair_perm.
  Qed.

  Lemma fu_sgn : forall n b, In n ax -> ephase (sterm g gd n) b = ephase (sgnph g n (gd n)) b.
  Proof. intros. unfold sterm, sgnph. destruct (qeqb _ _); auto. rewrite ephase_mod2. reflexivity. Qed.

  Lemma fuse_core : forall P s g2 g3 g4, pcl P -> allph P g ->
    to_number s = cprod (emitk g gd) pa * to_number (gscalar g) ->
    let ms := flat_map (emitm g gd) pa in
    let g1 := fold_left mstep ms (on_scalar (fun _ => s) g) in
    add_edge_table [] g1 = Ok g2 -> remove_edges [] g2 = Ok g3 -> remove_vertices (flat_map gmr ms) g3 = Ok g4 ->
    step_ok g g4 /\ allph P g4.
  Proof.
    intros P s g2 g3 g4 PC AP HS ms g1 E1 E2 E3.
    destruct (neg_fold (flat_map gpairs pa) g ZX) as [h [H1 [H2 [H3 [H4 [H5 [H6 H7]]]]]]].
    { rewrite flat_map_flat_map. exact fu_nd. }
    { intros nv Hnv. apply in_flat_map in Hnv. destruct Hnv as [pg [Hp Hnv]]. apply in_map_iff in Hnv.
      destruct Hnv as [n [<- Hn]]. cbn [fst snd]. destruct (fu_leaf n (ax_in _ _ Hp Hn)) as [L [_ PP]]. auto. }
    assert (VM : forall v, In v (flat_map gmv' ms) -> In v (vertices g)).
    { intros v Hv. destruct (emitted_in v Hv) as [pg [Hp Hu]]. apply gall_in in Hu. destruct Hu as [n [Hn E]].
      destruct (leaf_in g n (gd n) W (proj1 (fu_leaf n (ax_in _ _ Hp Hn)))). destruct E; subst; auto. }
    destruct (mstep_fold ms (on_scalar (fun _ => s) g)) as [X1 [X2 [X3 [X4 [X5 X6]]]]]; auto.
    { apply on_scalar_wfg; auto. }
    { exact emitted_nd. }
    fold g1 in X1, X2, X3, X4, X5, X6.
    assert (F1 : same_frame g g1) by (eapply same_frame_trans; [apply on_scalar_frame|exact X2]).
    assert (AD : gadj g1 = gadj g) by exact X3.
    assert (Fh : same_frame h g1).
    { clear - F1 H2. unfold same_frame in *. intuition congruence. }
    assert (ADh : gadj g1 = gadj h) by congruence.
    assert (PHh : forall pg n, In pg pa -> In n (snd pg) -> phase h n = 0%Qc /\ phase h (gd n) = sgnph g n (gd n)).
    { intros pg n Hp Hn. apply (H5 (n, gd n)). apply in_flat_map. exists pg. split; auto. apply in_map_iff. eauto. }
    assert (NIN : forall pg u, In pg pa -> In u (gall pg) -> ~ In u (flat_map gmv' (emitm g gd pg)) -> phase g1 u = phase g u).
    { intros pg u Hp Hu N. rewrite X5; auto. intros X. unfold ms in X. rewrite flat_map_flat_map in X. apply in_flat_map in X.
      destruct X as [pg' [Hp' X]].
      assert (Y : In u (gall pg')).
      { destruct (emitted_in u) as [pg2 [Hp2 Y]]. { rewrite flat_map_flat_map. apply in_flat_map. eauto. }
        assert (Z : In u (gall pg')).
        { apply gall_in. destruct (pa_cases pg' Hp') as [Hm|Hl].
          - rewrite emit_mg in X by auto. exists (klast pg'). rewrite (mg_split pg' Hm) at 1. rewrite in_app_iff. simpl in *. intuition.
          - destruct (emit_single pg' Hp' Hl) as [n [Y1 Y2]]. rewrite Y2 in X. exists n. rewrite Y1. destruct (qeqb _ _); simpl in *; intuition. }
        exact Z. }
      assert (pg' = pg) by (apply (gall_uniq pg' pg u); auto). subst pg'. contradiction. }
    (* phases agree outside the merged gadgets *)
    assert (PHC : forall u, In u core -> phase g1 u = phase h u).
    { intros u Hu. apply in_keep in Hu. destruct Hu as [Iu NA].
      destruct (in_dec Nat.eq_dec u (flat_map gall pa)) as [Y|Y].
      - apply in_flat_map in Y. destruct Y as [pg [Hp Hu]]. destruct (pa_cases pg Hp) as [Hm|Hl].
        { exfalso. apply NA. unfold A. apply in_flat_map. eauto. }
        destruct (emit_single pg Hp Hl) as [n [Y1 Y2]].
        destruct (PHh pg n Hp) as [Z1 Z2]; [rewrite Y1; simpl; auto|].
        assert (Q := Hu). apply gall_in in Q. destruct Q as [n' [Q1 Q2]]. rewrite Y1 in Q1. destruct Q1 as [<-|[]].
        destruct (qeqb (phase g n) 0%Qc) eqn:Q0.
        + rewrite (NIN pg u Hp Hu) by (rewrite Y2; simpl; tauto).
          destruct Q2 as [-> | ->]; [rewrite Z1; apply qeqb_eq; auto|]. rewrite Z2. unfold sgnph. rewrite Q0. reflexivity.
        + destruct (X6 (gd n) n (- phase g (gd n))%Qc [] []) as [T1 T2].
          { unfold ms. apply in_flat_map. exists pg. split; auto. rewrite Y2. simpl; auto. }
          destruct Q2 as [-> | ->]; [congruence|]. rewrite T1, Z2. unfold sgnph. rewrite Q0. reflexivity.
      - rewrite H4, X5; auto.
        + intros X. apply Y. destruct (emitted_in u X) as [pg [Hp Hu]]. apply in_flat_map. eauto.
        + rewrite flat_map_flat_map. exact Y. }
    (* scalars *)
    assert (SC : to_number (gscalar g1) = cprod (fun pg => sq2p (- ((Z.of_nat (length (fst pg)) - 1) * (Z.of_nat (length (snd pg)) - 1)))) mg * to_number (gscalar h)).
    { rewrite X4. simpl gscalar. rewrite HS, H6, cprod_flat.
      unfold mg. rewrite (cprod_filter _ _ (fun pg => Nat.leb 2 (length (snd pg)))).
      2:{ intros pg Hp E. apply Nat.leb_gt in E. destruct (emit_single pg Hp E) as [n [-> _]].
          replace (- ((Z.of_nat (length (fst pg)) - 1) * (Z.of_nat (length [n]) - 1)))%Z with 0%Z by (simpl; lia). apply sq2p_0. }
      unfold emitk. rewrite cprod_mult.
      rewrite (cprod_ext _ (fun a => cprod (fun nv => if qeqb (phase g (fst nv)) 0%Qc then C1 else cexp (phase g (snd nv))) (gpairs a))
                 (fun pg => cprod (nfac g gd) (snd pg))).
      - ring.
      - intros pg _. unfold gpairs. rewrite cprod_map. reflexivity. }
    assert (WH : wfg h) by (apply zx_wf, H1).
    assert (NLH : noloop h) by (apply zx_noloop, H1).
    assert (NL1 : noloop g1) by (intros v; unfold edge_type; rewrite AD; apply NL).
    assert (KH : keep A h = core) by (unfold core, keep; rewrite (proj1 H2); reflexivity).
    assert (ETh : forall a b, edge_type h a b = edge_type g a b) by (intros; unfold edge_type; rewrite H3; reflexivity).
    assert (ET1 : forall a b, edge_type g1 a b = edge_type g a b) by (intros; unfold edge_type; rewrite AD; reflexivity).
    set (kp := flat_map (fun pg => [klast pg; gd (klast pg)]) mg).
    assert (KPA : forall u, In u kp -> In u A).
    { intros u Hu. eapply Permutation_in; [apply Permutation_sym, A_perm|]. apply in_app_iff. auto. }
    assert (NK : NoDup kp).
    { assert (X := Permutation_NoDup A_perm A_nd). apply nodup_app_inv in X. apply X. }
    assert (KL : forall pg, In pg mg -> In (klast pg) (snd pg)).
    { intros pg Hm. rewrite (mg_split pg Hm). apply in_app_iff. simpl; auto. }
    assert (AP1 : forall Q, pcl Q -> allph Q g -> allph Q g1).
    { intros Q QC AQ u Hu. rewrite (proj1 F1) in Hu.
      destruct (in_dec Nat.eq_dec u (flat_map gmv' ms)) as [Y|Y]; [|rewrite X5 by auto; apply AQ; auto].
      apply in_flat_map in Y. destruct Y as [m [Hm Y]]. assert (Hm' := Hm). unfold ms in Hm'. apply in_flat_map in Hm'.
      destruct Hm' as [pg [Hp Hm']]. destruct QC as [QC [QN Q0]].
      destruct (pa_cases pg Hp) as [Hg|Hl].
      - rewrite emit_mg in Hm' by auto. destruct Hm' as [<-|[]]. apply X6 in Hm. destruct Hm as [Y1 Y2].
        destruct Y as [<-|[<-|[]]]; [|rewrite Y2; auto]. rewrite Y1, qmod2_idem. apply pcl_sumq; [split; auto|].
        intros n Hn. assert (Q (phase g (gd n))).
        { apply AQ. apply (leaf_in g n (gd n) W). apply fu_leaf. eapply ax_in; eauto. }
        unfold sterm. destruct (qeqb _ _); auto. right. rewrite Qcopp_involutive. auto.
      - destruct (emit_single pg Hp Hl) as [n [Y1 Y2]]. rewrite Y2 in Hm'. destruct (qeqb _ _); [destruct Hm'|].
        destruct Hm' as [<-|[]]. apply X6 in Hm. destruct Hm as [Z1 Z2]. destruct Y as [<-|[<-|[]]]; [|rewrite Z2; auto].
        rewrite Z1. apply QN. apply AQ. auto. }
    split.
    - eapply step_ok_trans; [exact H1|].
      apply (batch_sound2 h A (flat_map gmr ms) kp g1 [] [] g2 g3 g4); auto.
      + apply H1.
      + exact A_nd.
      + exact A_perm.
      + intros v Hv. rewrite (proj1 H2), (same_frame_isB g h) by auto. apply A_ok; auto.
      + apply AP1; [exact pcl_in02|]. exact (zx_ph g ZX).
      + apply tabL_nil.
      + intros u w [].
      + intros x. rewrite KH.
        rewrite (sumv_ext kp _ (integL (kp ++ core) g1)) by (intros y; unfold tabw; cbn [cprod]; ring).
        rewrite A_pairs. rewrite batch_sum.
        2:{ rewrite <- A_pairs. apply nodup_app; [exact A_nd|apply keep_nd; auto|]. intros v Hv Hk. apply in_keep in Hk. tauto. }
        2:{ eapply ForallOrdPairs_imp; [|apply FOP_nodup].
            - intros a b Ha Hb D u w Hu Hw. rewrite ETh. exact (mg_apart a b Ha Hb D u w Hu Hw).
            - assert (X := A_nd). rewrite A_pairs in X. revert X. generalize (flat_map gpairs mg). clear.
              induction l as [|a l IH]; simpl; intros X; constructor.
              + inversion X; subst. intros Y. apply H1. right. apply in_flat_map. exists a. split; auto. simpl; auto.
              + inversion X; subst. inversion H2; subst. auto. }
        assert (EK : kp = flat_map (fun pg => [klast pg; gd (klast pg)]) mg) by reflexivity.
        rewrite EK, batch_sum.
        2:{ rewrite <- EK. apply nodup_app; [exact NK|apply keep_nd; auto|]. intros v Hv Hk. apply in_keep in Hk. apply Hk, KPA; auto. }
        2:{ eapply ForallOrdPairs_imp; [|apply FOP_nodup].
            - intros a b Ha Hb D u w Hu Hw. rewrite ET1.
              apply (mg_apart (klast a, gd (klast a)) (klast b, gd (klast b))); auto.
              + apply in_flat_map. exists a. split; auto. apply in_map_iff. exists (klast a). split; auto.
              + apply in_flat_map. exists b. split; auto. apply in_map_iff. exists (klast b). split; auto.
              + intros E. apply D. injection E as E _. apply (gall_uniq a b (klast a)).
                * apply mg_in in Ha; tauto.
                * apply mg_in in Hb; tauto.
                * apply gall_in. exists (klast a). auto.
                * apply gall_in. exists (klast b). auto.
            - revert NK. unfold kp. generalize mg. clear. induction l as [|a l IH]; simpl; intros X; constructor.
              + inversion X; subst. intros Y. apply H1. right. apply in_flat_map. exists a. split; auto. simpl; auto.
              + inversion X; subst. inversion H2; subst. auto. }
        rewrite (integL_ext_k _ h g1 core x SC).
        2:{ intros v Hv. split; [apply same_frame_vty; auto|auto]. }
        2:{ intros; congruence. }
        2:{ intros v. apply same_frame_vty; auto. }
        rewrite cprod_flat. rewrite <- Cmult_assoc. f_equal. rewrite <- cprod_mult. apply cprod_ext. intros [par gad] Hm.
        assert (Hp := proj1 (proj1 (mg_in _) Hm)).
        cbn [fst snd]. unfold gpairs. cbn [snd]. rewrite cprod_map.
        rewrite (cprod_ext _ _ (fun n => sq2p (1 - Z.of_nat (length par)) * ephase (sterm g gd n) (parity x par))).
        2:{ intros n Hn. change (npair (n, gd n)) with [n; gd n].
            destruct (PHh (par,gad) n Hp Hn) as [Z1 Z2].
            rewrite (fu_value h par gad n x); auto. rewrite Z2, fu_sgn; auto. eapply ax_in; eauto. }
        destruct (X6 (gd (klast (par,gad))) (klast (par,gad)) (qmod2 (sumq (map (sterm g gd) gad))) (kinit (par,gad)) (map gd (kinit (par,gad)))) as [T1 T2].
        { unfold ms. apply in_flat_map. exists (par,gad). split; auto. rewrite (emit_mg (par,gad) Hm). simpl; auto. }
        rewrite (fu_value g1 par gad (klast (par,gad)) x); auto.
        2:{ apply (KL (par,gad)); auto. }
        rewrite T1, !ephase_mod2, ephase_sumq, cprod_mult, cprod_const, cpow_sq2p.
        rewrite Cmult_assoc, <- sq2p_add. f_equal. f_equal. ring.
    - eapply (batch_allph2 P (keep A g) (flat_map gmr ms) [] [] g1 g2 g3 g4); auto.
      + apply keep_nd; auto.
      + apply tabL_nil.
  Qed.
End Fuse.

Theorem gadget_step : forall K P cands g ms g1 o g', good K P -> dok g -> glike g -> gsep g -> allph P g ->
  match_phase_gadgets cands g = Ok (ms, g1) -> merge_phase_gadgets ms g1 = Ok o -> apply_rw o = Ok g' ->
  step_k K g g' /\ allph P g'.
Proof.
  intros K P cands g ms g1 o g' G DK GL GS AP HM HO HR.
  assert (W := zx_wf g (dk_zx g DK)).
  unfold match_phase_gadgets in HM. destruct (fold_left (gadget_collect g) cands ([],[])) as [gadgets pa] eqn:EC.
  assert (CO : coll g (gadgets, pa)) by (rewrite <- EC; apply collect_fold; auto; apply coll_nil).
  destruct (emit_all gadgets g pa [] g) as [s [E N]]; auto.
  { intros pg Hp. destruct pg as [par gad]. split; [apply (co_par _ _ CO par gad Hp)|].
    intros n Hn. apply (co_in _ _ CO). apply in_flat_map. eauto. }
  rewrite E in HM. injection HM as <- <-. unfold merge_phase_gadgets in HO. rewrite merge_fold in HO. injection HO as <-.
  cbn [app] in HR. eapply apply_rw_sound; [exact G| |exact HR]. cbn [rw_graph rw_verts rw_edges rw_etab].
  intros a b c. apply (fuse_core g gadgets pa); auto. apply G.
Qed.

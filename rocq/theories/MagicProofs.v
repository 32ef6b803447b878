(** Attaching spiders to a diagram: what each term of a magic state decomposition
    does to the value. *)
From Coq Require Import Reals ZArith QArith Qcanon List Bool Arith Lia.
From Verif Require Import CNum Base ScalarModel ScalarProofs GraphModel GateModel GraphSem SumLemmas GraphProofs GraphOps BfixProofs InvProofs ZXFacts RuleLemmas GadgetProofs TotalProofs GrowProofs GraphAlgModel GraphAlgProofs GraphAlgFacts MagicModel MagicAlg.
Import ListNotations.
Local Open Scope nat_scope.

Definition nm (L : list nat) (i : nat) : nat := nth i L 0.
Lemma nm_app : forall L M i, i < length L -> nm (L ++ M) i = nm L i.
Proof. intros. unfold nm. apply app_nth1. auto. Qed.
Lemma nm_last : forall L w, nm (L ++ [w]) (length L) = w.
Proof. intros. unfold nm. rewrite app_nth2, Nat.sub_diag by lia. reflexivity. Qed.
Lemma nm_in : forall L i, i < length L -> In (nm L i) L. Proof. intros. apply nth_In. auto. Qed.
Lemma nm_inj : forall L i j, NoDup L -> i < length L -> j < length L -> nm L i = nm L j -> i = j.
Proof. intros L i j N A B E. apply (proj1 (NoDup_nth L 0) N); auto. Qed.
Lemma hit_nm : forall L a b i j, NoDup L -> a < length L -> b < length L -> i < length L -> j < length L ->
  pair_hit (nm L a) (nm L b) (nm L i) (nm L j) = pair_hit a b i j.
Proof.
  intros L a b i j N A B I J.
  assert (E : forall u v, u < length L -> v < length L -> Nat.eqb (nm L u) (nm L v) = Nat.eqb u v).
  { intros u v U V. destruct (Nat.eqb_spec u v) as [->|D]; [apply Nat.eqb_refl|]. apply Nat.eqb_neq. intros X. apply D, (nm_inj L); auto. }
  unfold pair_hit. rewrite !E; auto.
Qed.

Lemma nodup_r : forall (l m : list nat), NoDup (l ++ m) -> NoDup m.
Proof. induction l; intros m H; auto. inversion H; auto. Qed.
Lemma nodup_cat : forall (l m : list nat), NoDup l -> NoDup m -> (forall a, In a l -> ~ In a m) -> NoDup (l ++ m).
Proof.
  induction l as [|a l IH]; intros m A B D; auto. inversion_clear A. cbn. constructor.
  - intros X. apply in_app_or in X. destruct X as [X|X]; [auto|]. apply (D a); [left|]; auto.
  - apply IH; auto. intros b Hb. apply D. right; auto.
Qed.
(** total number of quarter turns put on vertex u *)
Fixpoint ksum (f : nat -> nat) (l : list fac) (u : nat) : Z :=
  match l with [] => 0%Z | FP k i :: l => ((if Nat.eqb u (f i) then k else 0) + ksum f l u)%Z | _ :: l => ksum f l u end.
Lemma ksum_app : forall f l l' u, ksum f (l ++ l') u = (ksum f l u + ksum f l' u)%Z.
Proof. induction l as [|[k i|e i j] l IH]; intros l' u; cbn [ksum app]; auto. rewrite IH. lia. Qed.
Lemma ksum_ext : forall f f' n l u, Forall (fin n) l -> (forall i, i < n -> f i = f' i) -> ksum f l u = ksum f' l u.
Proof. induction l as [|[k i|e i j] l IH]; intros u F H; inversion_clear F; cbn [ksum]; auto. cbn in H0. rewrite (H i), IH by auto. auto. Qed.
Lemma ksum_out : forall f n l u, Forall (fin n) l -> (forall i, i < n -> f i <> u) -> ksum f l u = 0%Z.
Proof.
  induction l as [|[k i|e i j] l IH]; intros u F H; inversion_clear F; cbn [ksum]; auto. cbn in H0. rewrite IH by auto.
  destruct (Nat.eqb_spec u (f i)) as [->|]; [destruct (H i H0); auto|lia].
Qed.

Record good (g : graph) (vs : list nat) : Prop := mkgood {
  go_core : zcore g; go_nd : NoDup vs; go_in : incl vs (vertices g); go_z : forall v, In v vs -> vty g v = ZSP }.
(** the phase before anything was added *)
Definition bp (g : graph) (u : nat) : Qc := if mem u (vertices g) then phase g u else 0%Qc.
Record att (g : graph) (vs : list nat) (h : graph) (N : list nat) (k : zw) (p : Z) (l : list fac) : Prop := mkatt {
  at_wf : wfg h; at_v : vertices h = vertices g ++ N;
  at_t : forall u, vty h u = if mem u N then ZSP else vty g u;
  at_i : ginputs h = ginputs g; at_o : goutputs h = goutputs g;
  at_r : rows_ok g -> rows_ok h;
  at_l : Forall (fin (length (vs ++ N))) l;
  at_e : forall u v, edge_type h u v = edge_type g u v \/ exists e i j, In (FE e i j) l /\ pair_hit (nm (vs ++ N) i) (nm (vs ++ N) j) u v = true;
  at_p : forall u, In u (vertices h) -> phase h u = qmod2 (bp g u + frac (ksum (nm (vs ++ N)) l u) 4)%Qc;
  at_x : forall x, integL (vertices h) h x = (integL (vertices g) g x * (ev k * sq2p p * ev (pden l (fun i => x (nm (vs ++ N) i)))))%C }.

Lemma frac_0 : forall d, frac 0 d = 0%Qc. Proof. intros. apply Qc_is_canon. rewrite this_frac. unfold Qeq. cbn. auto. Qed.
Lemma att_nil : forall g vs, good g vs -> att g vs g [] z1 0 [].
Proof.
  intros g vs G. destruct (go_core _ _ G). constructor; auto.
  - rewrite app_nil_r; auto.
  - intros u Hu. cbn [ksum]. rewrite frac_0. unfold bp. apply mem_spec in Hu. rewrite Hu. apply mem_spec in Hu. replace (phase g u + 0)%Qc with (phase g u) by ring.
    symmetry. apply qmod2_id; apply zc_ph; auto.
  - intros x. cbn [pden]. rewrite ev_1, sq2p_0. ring.
Qed.

Section Step.
  Variables (g : graph) (vs : list nat).
  Hypothesis G : good g vs.
  Section H.
  Variables (h : graph) (N : list nat) (k : zw) (p : Z) (l : list fac).
  Hypothesis A : att g vs h N k p l.
  Let W : wfg g := zc_wf _ (go_core _ _ G).
  Lemma att_nd : NoDup (vertices g ++ N).
  Proof using A. rewrite <- (at_v _ _ _ _ _ _ _ A). apply wf_nd, A. Qed.
  Lemma att_new : forall w, In w N -> ~ In w (vertices g).
  Proof using A. intros w H X. exact (NoDup_app_disj _ _ _ att_nd _ X H). Qed.
  Lemma att_names : NoDup (vs ++ N).
  Proof using A G.
    apply nodup_cat; [apply (go_nd _ _ G)|exact (nodup_r _ _ att_nd)|]. intros a Ha Hn. apply (att_new a Hn), (go_in _ _ G), Ha.
  Qed.
  Lemma att_in : forall i, i < length (vs ++ N) -> In (nm (vs ++ N) i) (vertices h) /\ vty h (nm (vs ++ N) i) = ZSP.
  Proof using A G.
    intros i Hi. assert (X := nm_in _ _ Hi). rewrite (at_v _ _ _ _ _ _ _ A), (at_t _ _ _ _ _ _ _ A). apply in_app_or in X. destruct (mem (nm (vs ++ N) i) N) eqn:M.
    - apply mem_spec in M. split; auto. apply in_or_app; auto.
    - apply mem_false in M. destruct X as [X|X]; [|tauto]. split; [apply in_or_app; left; apply (go_in _ _ G); auto|apply (go_z _ _ G); auto].
  Qed.

  Lemma att_scalar : forall f k' p', (forall s, to_number (f s) = (ev k' * sq2p p' * to_number s)%C) -> att g vs (on_scalar f h) N (zmul k k') (p + p') l.
  Proof using A.
    intros f k' p' F. destruct A. constructor; auto.
    - destruct at_wf0. constructor; auto.
    - intros x. change (vertices (on_scalar f h)) with (vertices h). rewrite (integL_scalar _ _ _ _ _ (F _)), at_x0, ev_mul, sq2p_add. ring.
  Qed.
  Lemma att_phase : forall v q i z, v = nm (vs ++ N) i -> i < length (vs ++ N) -> q = frac z 4 ->
    att g vs (add_to_phase v q h) N k p (l ++ [FP z i]).
  Proof using A G.
    intros v q i z -> Hi ->. destruct (att_in i Hi) as [Iv Tv]. destruct A. constructor; auto.
    - apply add_to_phase_wfg; auto.
    - apply Forall_app; split; auto.
    - intros u v. destruct (at_e0 u v) as [E|[e [a [b [E1 E2]]]]]; auto. right. exists e, a, b. split; auto. apply in_or_app; auto.
    - intros u Hu. change (vertices (add_to_phase _ _ h)) with (vertices h) in Hu. rewrite phase_add_to_phase, ksum_app. cbn [ksum].
      destruct (Nat.eqb_spec u (nm (vs ++ N) i)) as [->|D]; rewrite at_p0 by auto.
      + rewrite qmod2_add_l. f_equal. rewrite <- Qcplus_assoc, frac_add. do 2 f_equal. lia.
      + do 3 f_equal. lia.
    - intros x. change (vertices (add_to_phase _ _ h)) with (vertices h). rewrite integL_add_to_phase; auto; [|apply at_wf0|unfold isB; rewrite Tv; auto].
      rewrite at_x0, ev_pden_app. cbn [pden fval]. rewrite ev_mul, ev_1. unfold ephase. destruct (x _); rewrite ?ev_wpow, ?ev_1; ring.
  Qed.
  Lemma att_vertex : forall q r pp h' w z, add_vertex ZSP q r pp h = (h', w) -> match pp with Some a => a | None => 0%Qc end = frac z 4 ->
    att g vs h' (N ++ [w]) k p (l ++ [FP z (length (vs ++ N))]).
  Proof using A G.
    intros q r pp h' w z E P.
    assert (E' : add_vertex ZSP q r (Some (frac z 4)) h = (h', w)).
    { destruct pp as [a|]; [rewrite <- P; auto|]. rewrite <- E, <- P. reflexivity. }
    clear E P. destruct (add_vertex_grown _ _ _ _ _ _ _ (at_wf _ _ _ _ _ _ _ A) E'). assert (X := att_new).
    assert (F : ~ In w (vertices h)) by (subst w; intros Y; apply (wf_fresh _ (at_wf _ _ _ _ _ _ _ A)) in Y; lia).
    assert (L1 : length (vs ++ N ++ [w]) = S (length (vs ++ N))) by (rewrite !app_length; cbn; lia).
    assert (NE : forall i, i < length (vs ++ N) -> nm (vs ++ N ++ [w]) i = nm (vs ++ N) i) by (intros; rewrite app_assoc; apply nm_app; auto).
    assert (NW : nm (vs ++ N ++ [w]) (length (vs ++ N)) = w) by (rewrite app_assoc; apply nm_last).
    assert (AI := att_in). destruct A. constructor; auto; try congruence.
    - rewrite gn_v, at_v0, app_assoc. auto.
    - intros u. rewrite gn_t. unfold mem. rewrite existsb_app. cbn [existsb]. rewrite orb_false_r. destruct (Nat.eqb_spec u w); [rewrite orb_true_r; auto|]. rewrite orb_false_r. apply at_t0.
    - rewrite L1. apply Forall_app. split; [|repeat constructor; cbn; lia]. eapply Forall_impl; [|exact at_l0]. intros [a i|e i j] H; cbn in *; lia.
    - intros u v. rewrite gn_e. destruct (at_e0 u v) as [E|[e [a [b [E1 E2]]]]]; auto. right. exists e, a, b. split; [apply in_or_app; auto|].
      rewrite Forall_forall in at_l0. specialize (at_l0 _ E1). cbn in at_l0. rewrite !NE by lia. auto.
    - intros u Hu. rewrite gn_p, ksum_app, (ksum_ext _ (nm (vs ++ N)) (length (vs ++ N)) l) by auto. cbn [ksum]. rewrite NW. destruct (Nat.eqb_spec u w) as [->|D].
      + rewrite (ksum_out _ (length (vs ++ N)) l) by (auto; intros i Hi Y; destruct (AI i Hi) as [B _]; rewrite Y in B; auto).
        unfold bp. replace (mem w (vertices g)) with false by (symmetry; apply mem_false; intros Y; apply F; rewrite at_v0; apply in_or_app; auto).
        f_equal. rewrite Qcplus_0_l. f_equal. lia.
      + rewrite gn_v in Hu. apply in_app_or in Hu. destruct Hu as [Hu|[<-|[]]]; [|tauto]. rewrite at_p0 by auto. do 3 f_equal. lia.
    - intros x. rewrite gn_v. rewrite (integL_perm _ _ (w :: vertices h)) by (auto; apply Permutation.Permutation_sym, Permutation.Permutation_cons_append).
      change (w :: vertices h) with ([w] ++ vertices h). rewrite integL_app. cbn [cprod pprod].
      assert (E1 : integL (vertices h) h' x = integL (vertices h) h x).
      { unfold integL. rewrite gn_s. f_equal; [f_equal|].
        - apply cprod_ext. intros u Hu. unfold pw, isB. rewrite gn_t, gn_p. destruct (Nat.eqb_spec u w); [congruence|auto].
        - apply pprod_ext. intros u v Hu Hv. unfold ew, isX. rewrite !gn_t, gn_e. destruct (Nat.eqb_spec u w), (Nat.eqb_spec v w); congruence. }
      rewrite E1, at_x0. rewrite (cprod_1 _ (fun v => ew h' w v (x w) (x v)) (vertices h)).
      2:{ intros v Hv. unfold ew. rewrite gn_e. destruct (edge_type h w v) eqn:Ew; auto. apply edge_in_l in Ew. tauto. }
      unfold pw, isB. rewrite gn_t, gn_p, Nat.eqb_refl. cbn [vtype_eqb]. rewrite ev_pden_app. cbn [pden fval]. rewrite NW, ev_mul, ev_1.
      rewrite (pden_agree (length (vs ++ N)) l (fun i => x (nm (vs ++ N ++ [w]) i)) (fun i => x (nm (vs ++ N) i))) by (auto; intros i Hi; rewrite NE; auto).
      unfold ephase. destruct (x w); rewrite ?cexp_qmod2, ?ev_wpow, ?ev_1; ring.
  Qed.
  Definition nohit (i j : nat) (f : fac) : bool := match f with FE _ a b => negb (pair_hit a b i j) | _ => true end.
  Lemma att_edge : forall s t e i j, s = nm (vs ++ N) i -> t = nm (vs ++ N) j -> i < length (vs ++ N) -> j < length (vs ++ N) -> i <> j ->
    (length vs <= i \/ length vs <= j) -> forallb (nohit i j) l = true ->
    exists h', add_edge s t e h = Ok h' /\ set_edge_type s t e (with_nedges (gnedges h + 1)%Z h) = Ok h' /\
      att g vs h' N k (p + match e with HADAMARD => -1 | SIMPLE => 0 end) (l ++ [FE e i j]).
  Proof using A G.
    intros s t e i j -> -> Hi Hj D O NH. set (s := nm (vs ++ N) i). set (t := nm (vs ++ N) j).
    destruct (att_in i Hi) as [Is Ts]. destruct (att_in j Hj) as [It Tt]. fold s in Is, Ts. fold t in It, Tt.
    assert (ND := att_names).
    assert (Dst : s <> t) by (intros X; apply D; apply (nm_inj (vs ++ N)); auto).
    assert (NG : edge_type g s t = None).
    { assert (Y : ~ In s (vertices g) \/ ~ In t (vertices g)).
      { destruct O as [O|O]; [left|right]; apply att_new; unfold s, t, nm; rewrite app_nth2 by lia; apply nth_In; rewrite app_length in *; lia. }
      destruct (edge_type g s t) as [e0|] eqn:X; auto. exfalso. destruct Y as [Y|Y]; apply Y; [eapply edge_in_l; eauto|eapply edge_in_r; eauto]. }
    assert (EN : edge_type h s t = None).
    { destruct (at_e _ _ _ _ _ _ _ A s t) as [->|[e0 [a [b [E1 E2]]]]]; auto. exfalso.
      assert (Lp := at_l _ _ _ _ _ _ _ A). rewrite Forall_forall in Lp. specialize (Lp _ E1). cbn in Lp. unfold s, t in E2. rewrite hit_nm in E2 by (auto; tauto).
      rewrite forallb_forall in NH. specialize (NH _ E1). cbn in NH. rewrite E2 in NH. discriminate. }
    destruct (add_edge_fresh s t e h (at_wf _ _ _ _ _ _ _ A) Dst Is It EN) as [h' [E [W' [F [P [S ET]]]]]]. exists h'. split; auto.
    split. { unfold add_edge in E. destruct (dget s (gadj h)) as [ds|] eqn:Es; [|discriminate]. rewrite (edge_none_dget h s t ds Es) in EN. rewrite EN in E. exact E. }
    destruct (add_edge_spec s t e h h' (at_wf _ _ _ _ _ _ _ A) Dst E) as [_ [_ [_ [_ [_ [_ IN]]]]]].
    destruct F as [FV [FT [FI [FO [FX [FQ FR]]]]]]. destruct A. constructor; auto; try congruence.
    - intros u. unfold vty. rewrite FT. apply at_t0.
    - intros R u Hu. rewrite FR. apply at_r0; auto. congruence.
    - apply Forall_app. split; auto. repeat constructor; auto.
    - intros u v. rewrite ET. destruct (pair_hit s t u v) eqn:HH.
      + right. exists e, i, j. split; [apply in_or_app; right; left; auto|auto].
      + destruct (at_e0 u v) as [X|[e0 [a [b [E1 E2]]]]]; auto. right. exists e0, a, b. split; auto. apply in_or_app; auto.
    - intros u Hu. rewrite FV in Hu. rewrite P, at_p0, ksum_app by auto. cbn [ksum]. do 3 f_equal. lia.
    - intros x. rewrite FV, IN by (auto; apply at_wf0). rewrite at_x0, ev_pden_app, sq2p_add. unfold nw, isX. rewrite Ts, Tt. cbn [vtype_eqb xorb tog pden fval]. fold s t.
      unfold s, t. set (a := x (nm (vs ++ N) i)). set (b := x (nm (vs ++ N) j)). destruct e; cbn [wt]; rewrite ev_mul, ev_1.
      + unfold dlt. rewrite sq2p_0. destruct (Bool.eqb a b); rewrite ?ev_1, ?ev_0; ring.
      + unfold sgn. destruct (a && b); rewrite ?ev_m1, ?ev_1; ring.
  Qed.
  End H.
End Step.

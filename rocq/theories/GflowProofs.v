(** gflow returns a maximally delayed generalised flow, or None when there is none *)
From Coq Require Import QArith Qcanon List Bool Arith Lia Permutation.
From Verif Require Import Base LinModel LinProofs LinAlg LinUse LinFacts GraphModel GraphProofs GateModel GflowModel.
Import ListNotations.
Open Scope nat_scope.

(** ** Specification *)
(** w has an odd number of neighbours in K *)
Definition odd_nb (g : graph) (w : nat) (K : list nat) : bool := Nat.odd (length (filter (connected g w) K)).
(** the inputs of the pattern: neighbours of BOUNDARY inputs, and inputs that are spiders *)
Definition pin (g : graph) (v : nat) : Prop :=
  exists i, In i (ginputs g) /\ ((vty g i = BOUNDARY /\ edge_type g i v <> None) \/ (vty g i <> BOUNDARY /\ v = i)).
(** the vertices that need a correction: all but the outputs and the BOUNDARY inputs *)
Definition measured (g : graph) (v : nat) : Prop :=
  In v (vertices g) /\ ~ In v (goutputs g) /\ ~ (In v (ginputs g) /\ ~ pin g v).
(** l counts layers from the outputs; corrections and their odd neighbourhoods lie in earlier layers *)
Definition is_gflow (g : graph) (l : nat -> nat) (c : nat -> list nat) : Prop :=
  forall v, measured g v ->
    NoDup (c v) /\
    (forall w, In w (c v) -> (measured g w \/ In w (goutputs g)) /\ ~ pin g w /\ l w < l v) /\
    odd_nb g v (c v) = true /\
    (forall w, In w (vertices g) -> w <> v -> odd_nb g w (c v) = true -> l w < l v).

(** ** Lists *)
Lemma memb_in : forall v l, memb v l = true <-> In v l.
Proof. intros. unfold memb. rewrite existsb_exists. split; [intros [x [A B]]; apply Nat.eqb_eq in B; subst; auto|intros; exists v; rewrite Nat.eqb_refl; auto]. Qed.
Lemma memb_nin : forall v l, memb v l = false <-> ~ In v l.
Proof. intros. rewrite <- memb_in. destruct (memb v l); split; congruence. Qed.
Lemma diff_in : forall v a b, In v (diff a b) <-> In v a /\ ~ In v b.
Proof. intros. unfold diff. rewrite filter_In, negb_true_iff, memb_nin. tauto. Qed.
Lemma set_eqb_in : forall a b, set_eqb a b = true <-> (forall v, In v a <-> In v b).
Proof.
  intros. unfold set_eqb. rewrite andb_true_iff, !forallb_forall. split.
  - intros [A B] v. split; intros H; apply memb_in; auto.
  - intros H. split; intros v Hv; apply memb_in; apply H; auto.
Qed.
Lemma filterM_ok : forall A (f : A -> res bool) (p : A -> bool) l, (forall x, In x l -> f x = Ok (p x)) -> filterM f l = Ok (filter p l).
Proof. induction l as [|x l IH]; intros H; auto. simpl. rewrite H, IH by (simpl; auto; intros; apply H; simpl; auto). simpl. destruct (p x); auto. Qed.
Lemma mapM_ok : forall A B (f : A -> res B) (p : A -> B) l, (forall x, In x l -> f x = Ok (p x)) -> mapM f l = Ok (map p l).
Proof. induction l as [|x l IH]; intros H; auto. simpl. rewrite H, IH by (simpl; auto; intros; apply H; simpl; auto). auto. Qed.
Lemma index_ok : forall u l, In u l -> exists i, index_of u l = Ok i /\ i < length l /\ nth i l 0 = u.
Proof.
  induction l as [|x l IH]; intros H; [destruct H|]. simpl. destruct (Nat.eqb_spec x u).
  - exists 0. split; auto. split; auto. lia.
  - destruct H as [|H]; [congruence|]. destruct (IH H) as [i [-> [A B]]]. exists (S i). simpl. split; auto. split; auto. lia.
Qed.
Lemma odd_app : forall A (l l' : list A), Nat.odd (length (l ++ l')) = xorb (Nat.odd (length l)) (Nat.odd (length l')).
Proof. intros. rewrite app_length. apply Nat.odd_add. Qed.
Lemma odd_sel : forall (f : nat -> bool) (b : nat -> bool) pp n,
  Nat.odd (length (filter f (map (fun i => nth i pp 0) (filter b (seq 0 n))))) = xsum (fun i => f (nth i pp 0) && b i) n.
Proof.
  intros f b pp. induction n; auto. rewrite seq_S, filter_app, map_app, filter_app, odd_app, IHn. simpl. f_equal.
  destruct (b n); simpl; [destruct (f (nth n pp 0)); auto|rewrite andb_false_r; auto].
Qed.
Lemma odd_filter : forall (f : nat -> bool) pp, xsum (fun i => f (nth i pp 0)) (length pp) = Nat.odd (length (filter f pp)).
Proof.
  intros f. induction pp as [|x pp IH]; auto. cbn [length]. rewrite xsum_shift. simpl. rewrite IH. destruct (f x); [|destruct (Nat.odd _); auto].
  cbn [length]. rewrite Nat.odd_succ, <- Nat.negb_odd. destruct (Nat.odd _); auto.
Qed.
Lemma nodup_map_inj : forall A B (f : A -> B) l, NoDup l -> (forall a b, In a l -> In b l -> f a = f b -> a = b) -> NoDup (map f l).
Proof.
  induction l as [|x l IH]; intros N H; [constructor|]. inversion_clear N. simpl. constructor.
  - intros C. apply in_map_iff in C. destruct C as [y [E Hy]]. rewrite (H y x) in Hy by (simpl; auto). auto.
  - apply IH; auto. intros. apply H; simpl; auto.
Qed.
Lemma dset_get : forall A v (x : A) d w, dget w (dset v x d) = if Nat.eqb w v then Some x else dget w d.
Proof. intros. apply dget_dset. Qed.

Section Loop.
  Variable g : graph.
  Hypothesis Wg : wfg g.
  Hypothesis Hio : forall v, In v (ginputs g) \/ In v (goutputs g) -> In v (vertices g).
  Hypothesis Hdis : forall v, In v (ginputs g) -> ~ In v (goutputs g).
  Variable pn : list nat.
  Hypothesis Hpin : forall v, In v pn <-> pin g v.
  Variables sp sc : nat -> list nat -> list nat.
  Hypothesis Hsp : forall k l, Permutation (sp k l) l.
  Hypothesis Hsc : forall k l, Permutation (sc k l) l.

  Lemma conn_nb : forall v w, connected g v w = true <-> In w (neighbors g v).
  Proof. intros. rewrite neighbors_some. unfold connected. destruct (edge_type g v w); split; intros H; try congruence; eauto. destruct H; congruence. Qed.
  Lemma conn_sym : forall v w, connected g v w = connected g w v.
  Proof. intros. unfold connected. rewrite (wf_sym _ Wg). auto. Qed.

  (** *** one round *)
  Section Round.
    Variable P : list nat.
    Variable k : nat.
    Hypothesis PV : forall v, In v P -> In v (vertices g).
    Hypothesis PN : NoDup P.
    Hypothesis PO : forall v, In v (goutputs g) -> In v P.
    Definition Rpp := filter (fun v => existsb (fun w => negb (memb w P)) (neighbors g v)) (sp k (diff P pn)).
    Definition Rcands := filter (fun v => existsb (fun w => memb w Rpp) (neighbors g v)) (sc k (diff (vertices g) P)).
    Definition Rm := bi_adj g Rpp Rcands.
    Lemma r_pp : forall v, In v Rpp <-> In v P /\ ~ pin g v /\ exists w, In w (neighbors g v) /\ ~ In w P.
    Proof.
      intros v. unfold Rpp. rewrite filter_In, existsb_exists. split.
      - intros [A [w [B C]]]. apply (Permutation_in _ (Hsp k _)) in A. apply diff_in in A. rewrite Hpin in A. apply negb_true_iff, memb_nin in C. split; [tauto|]. split; [tauto|]. eauto.
      - intros [A [B [w [C D]]]]. split.
        + apply (Permutation_in _ (Permutation_sym (Hsp k _))). apply diff_in. rewrite Hpin. auto.
        + exists w. split; auto. apply negb_true_iff, memb_nin. auto.
    Qed.
    Lemma r_cands : forall v, In v Rcands <-> In v (vertices g) /\ ~ In v P /\ exists w, In w (neighbors g v) /\ In w Rpp.
    Proof.
      intros v. unfold Rcands. rewrite filter_In, existsb_exists. split.
      - intros [A [w [B C]]]. apply (Permutation_in _ (Hsc k _)) in A. apply diff_in in A. apply memb_in in C. split; [tauto|]. split; [tauto|]. eauto.
      - intros [A [B [w [C D]]]]. split.
        + apply (Permutation_in _ (Permutation_sym (Hsc k _))). apply diff_in. auto.
        + exists w. split; auto. apply memb_in. auto.
    Qed.
    Lemma r_pp_run : filterM (any_nb g (fun w => negb (memb w P))) (sp k (diff P pn)) = Ok Rpp.
    Proof.
      apply filterM_ok. intros v Hv. apply (Permutation_in _ (Hsp k _)) in Hv. apply diff_in in Hv. unfold any_nb. rewrite neighbors_r_ok by (apply PV; tauto). auto.
    Qed.
    Lemma r_cands_run : filterM (any_nb g (fun w => memb w Rpp)) (sc k (diff (vertices g) P)) = Ok Rcands.
    Proof.
      apply filterM_ok. intros v Hv. apply (Permutation_in _ (Hsc k _)) in Hv. apply diff_in in Hv. unfold any_nb. rewrite neighbors_r_ok by tauto. auto.
    Qed.
    Lemma r_pp_nd : NoDup Rpp.
    Proof. unfold Rpp. apply NoDup_filter. apply (Permutation_NoDup (Permutation_sym (Hsp k _))). apply NoDup_filter. auto. Qed.
    Lemma r_cands_nd : NoDup Rcands.
    Proof. unfold Rcands. apply NoDup_filter. apply (Permutation_NoDup (Permutation_sym (Hsc k _))). apply NoDup_filter. apply Wg. Qed.
    Lemma m_rows : rows Rm = length Rcands.
    Proof. unfold Rm, bi_adj, rows. apply map_length. Qed.
    Lemma m_rect : rect (length Rcands) (length Rpp) Rm.
    Proof. split; [apply m_rows|]. intros x Hx. unfold Rm, bi_adj in Hx. apply in_map_iff in Hx. destruct Hx as [w [<- _]]. apply map_length. Qed.
    Lemma m_cols : Rcands <> [] -> cols Rm = length Rpp.
    Proof. unfold Rm, bi_adj. destruct Rcands; [congruence|]. intros _. simpl. apply map_length. Qed.
    Lemma m_get : forall i j, i < length Rcands -> j < length Rpp -> get Rm i j = connected g (nth i Rcands 0) (nth j Rpp 0).
    Proof.
      intros i j Hi Hj. unfold get, LinModel.row, Rm, bi_adj. rewrite (nth_indep _ [] (map (fun v => connected g v 0) Rpp)) by (rewrite map_length; auto).
      rewrite (map_nth (fun w => map (fun v => connected g v w) Rpp)). rewrite (nth_indep _ false (connected g 0 (nth i Rcands 0))) by (rewrite map_length; auto).
      rewrite (map_nth (fun v => connected g v (nth i Rcands 0))). apply conn_sym.
    Qed.
    (** u can be corrected by a set of processed vertices *)
    Definition good (u : nat) (c : list nat) : Prop :=
      NoDup c /\ (forall w, In w c -> In w Rpp) /\ forall w, In w Rcands -> odd_nb g w c = Nat.eqb w u.
    Definition solv (u : nat) : Prop := exists x : nat -> bool, forall w, In w Rcands -> xsum (fun j => connected g w (nth j Rpp 0) && x j) (length Rpp) = Nat.eqb w u.
    Lemma try_ok : forall st u, In u Rcands -> exists st', try_cand Rm Rpp Rcands k st u = Ok st' /\
      ((solv u /\ exists c, good u c /\ gl st' = dset u k (gl st) /\ gc st' = dset u c (gc st) /\ gcorr st' = gcorr st ++ [u]) \/
       (~ solv u /\ gl st' = gl st /\ gc st' = gc st /\ gcorr st' = gcorr st)).
    Proof.
      intros st u Hu. assert (NE : Rcands <> []) by (intros E; rewrite E in Hu; destruct Hu). unfold try_cand.
      destruct (index_ok u Rcands Hu) as [i [-> [Hi Ei]]]. cbn [bind]. set (vu := upd i [true] _).
      assert (Rv : rect (rows Rm) 1 vu).
      { rewrite m_rows. split; [unfold vu; rewrite upd_length, map_length; auto|]. intros x Hx. unfold vu in Hx. apply upd_in in Hx. destruct Hx as [->|Hx]; auto.
        apply in_map_iff in Hx. destruct Hx as [? [<- _]]. auto. }
      assert (Gv : forall j, j < length Rcands -> get vu j 0 = Nat.eqb (nth j Rcands 0) u).
      { intros j Hj. unfold get, LinModel.row, vu. rewrite nth_upd. rewrite map_length. destruct (Nat.eqb_spec j i) as [->|D].
        - apply Nat.ltb_lt in Hi. rewrite Hi. simpl. rewrite Ei, Nat.eqb_refl. auto.
        - simpl. destruct (Nat.eqb_spec (nth j Rcands 0) u) as [E|E].
          + exfalso. apply D. apply (proj1 (NoDup_nth Rcands 0) r_cands_nd); auto. congruence.
          + destruct (nth_in_or_default j (map (fun _ : nat => [false]) Rcands) []) as [X|X]; [|rewrite X; auto]. apply in_map_iff in X. destruct X as [? [<- _]]. auto. }
      assert (Wm : wfm Rm) by (unfold wfm; rewrite m_rows, m_cols by auto; apply m_rect).
      destruct (solve_spec (ghist st) Rm vu Wm Rv) as [o [h [-> S]]]. cbn [bind]. destruct o as [x|].
      - destruct S as [Rx S]. rewrite m_cols in Rx by auto. rewrite m_rows in S.
        assert (Q : forall w, In w Rcands -> xsum (fun j => connected g w (nth j Rpp 0) && get x j 0) (length Rpp) = Nat.eqb w u).
        { intros w Hw. destruct (In_nth _ _ 0 Hw) as [j [Hj <-]]. rewrite <- Gv, <- S by auto. unfold colprod. rewrite m_cols by auto. apply xsum_ext. intros t Ht. rewrite m_get; auto. }
        assert (Lx : rows x = length Rpp) by (apply Rx).
        rewrite (mapM_ok _ _ _ (fun i => nth i Rpp 0)). 2:{ intros t Ht. apply filter_In in Ht. destruct Ht as [Ht _]. apply in_seq in Ht. rewrite (nth_error_nth' Rpp 0) by (unfold rows in *; lia). auto. }
        cbn [bind]. eexists. split; [reflexivity|]. left. split; [exists (fun j => get x j 0); auto|]. eexists. split; [|split; [reflexivity|split; reflexivity]].
        split; [|split].
        + apply nodup_map_inj; [apply NoDup_filter, seq_NoDup|]. intros a b Ha Hb E. apply filter_In in Ha. apply filter_In in Hb. rewrite !in_seq in *. apply (proj1 (NoDup_nth Rpp 0) r_pp_nd); auto; lia.
        + intros w Hw. apply in_map_iff in Hw. destruct Hw as [t [<- Ht]]. apply filter_In in Ht. destruct Ht as [Ht _]. apply in_seq in Ht. apply nth_In. lia.
        + intros w Hw. unfold odd_nb. rewrite odd_sel, Lx. auto.
      - eexists. split; [reflexivity|]. right. split; [|auto]. intros [x S']. apply S. exists x. intros j Hj. rewrite m_rows in Hj. rewrite Gv, <- S' by (auto; apply nth_In; auto).
        unfold colprod. rewrite m_cols by auto. apply xsum_ext. intros t Ht. rewrite m_get; auto.
    Qed.
    Lemma round_ok : forall us st, NoDup us -> (forall u, In u us -> In u Rcands) -> exists st' cs, foldM (try_cand Rm Rpp Rcands k) us st = Ok st' /\
      gcorr st' = gcorr st ++ cs /\ NoDup cs /\ (forall u, In u cs <-> In u us /\ solv u) /\
      (forall v, dget v (gl st') = if memb v cs then Some k else dget v (gl st)) /\
      (forall v, ~ In v cs -> dget v (gc st') = dget v (gc st)) /\
      (forall v, In v cs -> exists c, dget v (gc st') = Some c /\ good v c).
    Proof.
      induction us as [|u us IH]; intros st N Hus.
      - exists st, []. simpl. rewrite app_nil_r. split; auto. split; auto. split; [constructor|]. split; [tauto|]. split; auto. split; auto. tauto.
      - inversion_clear N. destruct (try_ok st u (Hus u (or_introl eq_refl))) as [st1 [E1 C]]. cbn [foldM]. rewrite E1. cbn [bind].
        destruct (IH st1 H0 (fun v H => Hus v (or_intror H))) as [st2 [cs [E2 [G [N2 [Q [L [K1 K2]]]]]]]]. exists st2. destruct C as [[Su [c [Gc [A1 [A2 A3]]]]]|[Su [A1 [A2 A3]]]].
        + exists (u :: cs). split; auto. assert (NI : ~ In u cs) by (intros X; apply Q in X; tauto).
          split; [rewrite G, A3, <- app_assoc; auto|]. split; [constructor; auto|]. split.
          { intros v. simpl. rewrite Q. split; [intros [<-|[X Y]]; auto|intros [[<-|X] Y]; auto]. }
          split; [|split].
          * intros v. rewrite L, A1, dset_get. unfold memb. simpl. destruct (Nat.eqb_spec v u); simpl; auto. destruct (existsb _ cs); auto.
          * intros v Hv. rewrite K1 by (simpl in Hv; tauto). rewrite A2, dset_get. destruct (Nat.eqb_spec v u); auto. simpl in Hv. subst. tauto.
          * intros v [<-|Hv]; auto. exists c. rewrite K1, A2, dset_get, Nat.eqb_refl by auto. auto.
        + exists cs. split; auto. split; [rewrite G, A3; auto|]. split; auto. split.
          { intros v. rewrite Q. simpl. split; [intros [X Y]; auto|intros [[<-|X] Y]; auto; tauto]. }
          split; [intros v; rewrite L, A1; auto|]. split; auto. intros v Hv. rewrite K1, A2; auto.
    Qed.
    (** candidates are measured *)
    Lemma cands_measured : forall v, In v Rcands -> measured g v.
    Proof.
      intros v Hv. apply r_cands in Hv. destruct Hv as [A [B [w [C D]]]]. split; auto. split; [intros X; apply B, PO; auto|]. intros [X Y].
      apply r_pp in D. destruct D as [_ [D _]]. destruct (vty g v) eqn:T.
      1:{ apply D. exists v. split; auto. left. split; auto. apply neighbors_spec. auto. }
      all: apply Y; exists v; split; auto; right; split; auto; congruence.
    Qed.
    (** a measured vertex whose predecessors are processed is corrected in this round *)
    Lemma stuck : forall l' c', is_gflow g l' c' -> forall v, measured g v -> ~ In v P -> (forall w, measured g w -> l' w < l' v -> In w P) -> In v Rcands /\ solv v.
    Proof.
      intros l' c' F v Mv NP HP. destruct (F v Mv) as [N [Hc [Ho Hn]]].
      assert (CP : forall w, In w (c' v) -> In w P /\ ~ pin g w). { intros w Hw. destruct (Hc w Hw) as [[M|O] [A B]]; split; auto. }
      assert (Cpp : forall w u, In w (c' v) -> connected g u w = true -> ~ In u P -> In w Rpp).
      { intros w u Hw E Nu. apply r_pp. destruct (CP w Hw). split; auto. split; auto. exists u. split; auto. apply conn_nb. rewrite conn_sym. auto. }
      assert (Ev : forall w, In w Rcands -> odd_nb g w (c' v) = Nat.eqb w v).
      { intros w Hw. destruct (Nat.eqb_spec w v) as [->|D]; auto. destruct (odd_nb g w (c' v)) eqn:E; auto. exfalso.
        pose proof (cands_measured w Hw) as Mw. apply r_cands in Hw. destruct Hw as [A [B _]]. apply B. apply HP; auto. }
      split.
      - apply r_cands. split; [apply Mv|]. split; auto. unfold odd_nb in Ho. destruct (filter (connected g v) (c' v)) as [|w r] eqn:E; [discriminate|].
        assert (X : In w (filter (connected g v) (c' v))) by (rewrite E; simpl; auto). apply filter_In in X. destruct X as [X Y]. exists w. split; [apply conn_nb; auto|eauto].
      - exists (fun j => memb (nth j Rpp 0) (c' v)). intros w Hw. rewrite <- (Ev w Hw). unfold odd_nb. rewrite (odd_filter (fun p => connected g w p && memb p (c' v))).
        f_equal. apply Permutation_length. apply NoDup_Permutation; [apply NoDup_filter, r_pp_nd|apply NoDup_filter; auto|]. intros p. rewrite !filter_In, andb_true_iff, memb_in.
        split; [tauto|]. intros [A B]. split; auto. apply (Cpp p w); auto. apply r_cands in Hw. tauto.
    Qed.
  End Round.

  (** *** the loop *)
  Definition lf (l : dict nat) (v : nat) : nat := match dget v l with Some k => k | None => 0 end.
  Definition cf (c : dict (list nat)) (v : nat) : list nat := match dget v c with Some x => x | None => [] end.
  Record linv (P : list nat) (l : dict nat) (c : dict (list nat)) (k : nat) : Prop := mklinv {
    i_nd : NoDup P; i_k : 1 <= k;
    i_P : forall v, In v P -> measured g v \/ In v (goutputs g);
    i_O : forall v, In v (goutputs g) -> In v P;
    i_l : forall v, In v (dkeys l) <-> In v P;
    i_lk : forall v, In v P -> lf l v < k;
    i_l0 : forall v, In v (goutputs g) -> lf l v = 0;
    i_c : forall v, In v (dkeys c) <-> In v P /\ ~ In v (goutputs g);
    i_f : forall v, In v P -> ~ In v (goutputs g) -> NoDup (cf c v) /\
      (forall w, In w (cf c v) -> In w P /\ ~ pin g w /\ lf l w < lf l v) /\
      odd_nb g v (cf c v) = true /\
      (forall w, In w (vertices g) -> w <> v -> odd_nb g w (cf c v) = true -> In w P /\ lf l w < lf l v);
    i_max : forall l' c', is_gflow g l' c' -> (forall v, measured g v -> l' v < k -> In v P) /\ (forall v, In v P -> measured g v -> lf l v <= l' v) }.
  Definition gflow_post (r : option (dict nat * dict (list nat) * nat)) : Prop :=
    match r with
    | Some (l, c, k) => is_gflow g (lf l) (cf c) /\
        (forall v, In v (dkeys l) <-> measured g v \/ In v (goutputs g)) /\ (forall v, In v (dkeys c) <-> measured g v) /\
        (forall v, In v (goutputs g) -> lf l v = 0) /\ (forall v, lf l v < k) /\
        (forall l' c', is_gflow g l' c' -> forall v, measured g v -> lf l v <= l' v)
    | None => ~ exists l' c', is_gflow g l' c'
    end.
  Lemma loop_ok : forall fuel P l c h k, linv P l c k -> length (vertices g) < length P + fuel ->
    exists r h', gflow_loop sp sc g pn fuel l c h P k = Ok (r, h') /\ gflow_post r.
  Proof.
    induction fuel as [|fuel IH]; intros P l c h k I HF.
    - exfalso. assert (X : length P <= length (vertices g)).
      { apply NoDup_incl_length; [apply I|]. intros v Hv. destruct (i_P _ _ _ _ I v Hv) as [M|O]; [apply M|apply Hio; auto]. }
      lia.
    - assert (PV : forall v, In v P -> In v (vertices g)) by (intros v Hv; destruct (i_P _ _ _ _ I v Hv) as [M|O]; [apply M|apply Hio; auto]).
      cbn [gflow_loop]. rewrite (r_pp_run P k PV). cbn [bind]. rewrite (r_cands_run P k). cbn [bind].
      destruct (round_ok P k (i_nd _ _ _ _ I) (Rcands P k) (mkgs l c h []) (r_cands_nd P k) (fun u H => H)) as [st [cs [E [G [N [Q [L [K1 K2]]]]]]]].
      fold (Rm P k). rewrite E. cbn [bind]. rewrite G. cbn [gcorr app gl gc] in *. destruct cs as [|u0 cs0].
      + eexists. eexists. split; [reflexivity|].
        assert (ST : forall l' c', is_gflow g l' c' -> forall n v, measured g v -> l' v <= n -> In v P).
        { intros l' c' F. induction n as [n IHn] using lt_wf_ind. intros v Mv Hv. destruct (in_dec Nat.eq_dec v P) as [|NP]; auto. exfalso.
          destruct (stuck P k (i_nd _ _ _ _ I) (i_O _ _ _ _ I) l' c' F v Mv NP) as [A B]. { intros w Mw Hw. apply (IHn (l' w)); auto; lia. }
          apply (Q v). auto. }
        assert (EQ : set_eqb (diff (vertices g) P) (diff (ginputs g) pn) = true <-> forall v, measured g v -> In v P).
        { rewrite set_eqb_in. split.
          - intros H v [A [B D]]. destruct (in_dec Nat.eq_dec v P) as [|NP]; auto. exfalso. apply D. rewrite <- Hpin. apply diff_in. apply H. apply diff_in. auto.
          - intros H v. rewrite !diff_in, Hpin. split.
            + intros [A B]. destruct (in_dec Nat.eq_dec v (ginputs g)) as [X|X].
              * split; auto. intros Y. apply B. apply H. split; auto. split; [intros O; apply B; apply I; auto|tauto].
              * exfalso. apply B. apply H. split; auto. split; [intros O; apply B; apply I; auto|tauto].
            + intros [A B]. split; [apply Hio; auto|]. intros C. destruct (i_P _ _ _ _ I v C) as [[_ [_ M]]|O]; [apply M; auto|apply (Hdis v A O)]. }
        assert (GL : forall v, dget v (gl st) = dget v l) by (intros v; apply L).
        assert (LF : forall v, lf (gl st) v = lf l v) by (intros v; unfold lf; rewrite GL; auto).
        assert (GC : forall v, dget v (gc st) = dget v c) by (intros v; apply K1; auto).
        assert (CF : forall v, cf (gc st) v = cf c v) by (intros v; unfold cf; rewrite GC; auto).
        destruct (set_eqb _ _).
        * pose proof (proj1 EQ eq_refl) as ALL. cbn [gflow_post]. split.
          { intros v Mv. destruct (i_f _ _ _ _ I v (ALL v Mv)) as [A [B [D F]]]; [apply Mv|]. rewrite CF. split; auto. split; [|split; auto].
            - intros w Hw. rewrite !LF. destruct (B w Hw) as [B1 [B2 B3]]. split; auto. apply I; auto.
            - intros w Vw Dw Ow. rewrite !LF. apply F; auto. }
          split.
          { intros v. rewrite <- dget_keys, GL, dget_keys, (i_l _ _ _ _ I). split; [apply I|]. intros [M|O]; auto. apply I; auto. }
          split.
          { intros v. rewrite <- dget_keys, GC, dget_keys, (i_c _ _ _ _ I). split.
            - intros [A B]. destruct (i_P _ _ _ _ I v A); tauto.
            - intros M. split; auto. apply M. }
          split; [intros v O; rewrite LF; apply I; auto|]. split.
          { intros v. rewrite LF. destruct (in_dec Nat.eq_dec v P) as [X|X]; [apply I; auto|]. unfold lf. replace (dget v l) with (@None nat); [apply I|].
            symmetry. apply dget_none. rewrite (i_l _ _ _ _ I). auto. }
          intros l' c' F v Mv. rewrite LF. apply (proj2 (i_max _ _ _ _ I l' c' F)); auto.
        * cbn [gflow_post]. intros [l' [c' F]]. assert (X : false = true) by (apply EQ; intros v Mv; apply (ST l' c' F (l' v)); auto). discriminate.
      + set (cs := u0 :: cs0) in *.
        assert (CM : forall v, In v cs -> In v (Rcands P k)) by (intros v Hv; apply Q in Hv; tauto).
        assert (CN : forall v, In v cs -> ~ In v P) by (intros v Hv; apply CM, r_cands in Hv; tauto).
        assert (LF : forall v, lf (gl st) v = if memb v cs then k else lf l v) by (intros v; unfold lf; rewrite L; destruct (memb v cs); auto).
        assert (LP : forall v, In v P -> lf (gl st) v = lf l v) by (intros v Hv; rewrite LF; destruct (memb v cs) eqn:X; auto; apply memb_in in X; exfalso; apply (CN v); auto).
        assert (LC : forall v, In v cs -> lf (gl st) v = k) by (intros v Hv; rewrite LF; apply memb_in in Hv; rewrite Hv; auto).
        apply IH.
        2:{ rewrite app_length. simpl. lia. }
        constructor.
        * apply nodup_app; auto; [apply I|]. intros v Hv X. apply (CN v X Hv).
        * lia.
        * intros v Hv. apply in_app_iff in Hv. destruct Hv as [Hv|Hv]; [apply I; auto|]. left. apply (cands_measured P k); auto. apply I.
        * intros v Hv. apply in_app_iff. left. apply I. auto.
        * intros v. rewrite <- dget_keys, L, in_app_iff. destruct (memb v cs) eqn:X.
          -- apply memb_in in X. split; eauto.
          -- apply memb_nin in X. rewrite dget_keys, (i_l _ _ _ _ I). tauto.
        * intros v Hv. apply in_app_iff in Hv. destruct Hv as [Hv|Hv]; [rewrite LP by auto; pose proof (i_lk _ _ _ _ I v Hv); lia|rewrite LC by auto; lia].
        * intros v Hv. rewrite LP by (apply I; auto). apply I; auto.
        * intros v. rewrite <- dget_keys, in_app_iff. destruct (in_dec Nat.eq_dec v cs) as [X|X].
          -- destruct (K2 v X) as [x [-> _]]. split; [|eauto]. intros _. split; auto. intros O. apply (CN v X). apply I. auto.
          -- rewrite K1, dget_keys, (i_c _ _ _ _ I) by auto. tauto.
        * intros v Hv NO. apply in_app_iff in Hv. destruct Hv as [Hv|Hv].
          -- destruct (i_f _ _ _ _ I v Hv NO) as [A [B [D F]]]. replace (cf (gc st) v) with (cf c v) by (unfold cf; rewrite K1; auto; intros X; apply (CN v X Hv)).
             split; auto. split; [|split; auto].
             ++ intros w Hw. destruct (B w Hw) as [B1 [B2 B3]]. rewrite !LP by auto. split; [apply in_app_iff; auto|auto].
             ++ intros w Vw Dw Ow. destruct (F w Vw Dw Ow) as [F1 F2]. rewrite !LP by auto. split; [apply in_app_iff; auto|auto].
          -- destruct (K2 v Hv) as [x [Ex [Nx [Sx Ox]]]]. unfold cf. rewrite Ex, (LC v Hv).
             assert (SP : forall w, In w P -> lf (gl st) w < k) by (intros w Hw; rewrite LP by auto; apply I; auto).
             split; auto. split; [|split].
             ++ intros w Hw. apply Sx, r_pp in Hw. destruct Hw as [W1 [W2 _]]. split; [apply in_app_iff; auto|]. split; auto.
             ++ rewrite Ox, Nat.eqb_refl by (apply CM; auto). auto.
             ++ intros w Vw Dw Ow. assert (X : In w P); [|split; [apply in_app_iff; auto|auto]]. destruct (in_dec Nat.eq_dec w P) as [|NP]; auto. exfalso.
                assert (Wc : In w (Rcands P k)).
                { unfold odd_nb in Ow. destruct (filter (connected g w) x) as [|y r] eqn:Ey; [discriminate|].
                  assert (X : In y (filter (connected g w) x)) by (rewrite Ey; simpl; auto). apply filter_In in X. destruct X as [X Y].
                  apply r_cands. split; auto. split; auto. exists y. split; [apply conn_nb; auto|auto]. }
                rewrite Ox in Ow by auto. apply Nat.eqb_eq in Ow. auto.
        * intros l' c' F. destruct (i_max _ _ _ _ I l' c' F) as [M1 M2].
          assert (HI : forall v, measured g v -> l' v < S k -> In v (P ++ cs)).
          { intros v Mv Hv. apply in_app_iff. destruct (in_dec Nat.eq_dec v P) as [|NP]; auto. right.
            apply Q. apply (stuck P k (i_nd _ _ _ _ I) (i_O _ _ _ _ I) l' c' F v Mv NP). intros w Mw Hw. apply M1; auto. lia. }
          split; auto. intros v Hv Mv. apply in_app_iff in Hv. destruct Hv as [Hv|Hv]; [rewrite LP by auto; auto|]. rewrite LC by auto.
          destruct (le_lt_dec k (l' v)) as [|X]; auto. exfalso. apply (CN v Hv). apply M1; auto.
  Qed.
End Loop.

Lemma pat_in_run : forall g l acc, wfg g -> (forall v, In v l -> In v (vertices g)) -> exists r, foldM (pat_in g) l acc = Ok r /\
  forall v, In v r <-> In v acc \/ exists i, In i l /\ ((vty g i = BOUNDARY /\ edge_type g i v <> None) \/ (vty g i <> BOUNDARY /\ v = i)).
Proof.
  intros g. induction l as [|i l IH]; intros acc W H.
  - exists acc. split; auto. intros v. split; auto. intros [|[i [[] _]]]; auto.
  - assert (Hi : In i (vertices g)) by (apply H; simpl; auto).
    assert (E : exists acc', pat_in g acc i = Ok acc' /\ forall v, In v acc' <-> In v acc \/ (vty g i = BOUNDARY /\ edge_type g i v <> None) \/ (vty g i <> BOUNDARY /\ v = i)).
    { unfold pat_in, vtype_r, vty. pose proof (proj2 (wf_ty _ W i) Hi) as T. apply dget_keys in T. destruct T as [t T]. rewrite T. cbn [of_opt bind].
      destruct t.
      1:{ rewrite neighbors_r_ok by auto. cbn [bind]. eexists. split; [reflexivity|]. intros v. rewrite in_app_iff, neighbors_spec. split; [tauto|]. intros [|[[]|[]]]; auto; congruence. }
      all: eexists; (split; [reflexivity|]); intros v; rewrite in_app_iff; simpl; split;
        [intros [|[<-|[]]]; auto; right; right; split; auto; discriminate|intros [|[[X _]|[_ ->]]]; auto; discriminate]. }
    destruct E as [acc' [E A]]. cbn [foldM]. rewrite E. cbn [bind]. destruct (IH acc' W (fun v Hv => H v (or_intror Hv))) as [r [R B]]. exists r. split; auto.
    intros v. rewrite B, A. split.
    + intros [[|X]|[j [Hj X]]]; auto; right; [exists i|exists j]; simpl; auto.
    + intros [|[j [[<-|Hj] X]]]; auto. right. eauto.
Qed.
Lemma init_l : forall P d v, dget v (fold_left (fun l v => dset v 0 l) P d) = if memb v P then Some 0 else dget v d.
Proof.
  induction P as [|x P IH]; intros d v; auto. simpl. rewrite IH, dset_get. unfold memb. simpl. destruct (Nat.eqb v x); simpl; auto. destruct (existsb _ P); auto.
Qed.
Theorem gflow_exact : forall sp sc h g, (forall k l, Permutation (sp k l) l) -> (forall k l, Permutation (sc k l) l) ->
  wfg g -> (forall v, In v (ginputs g) \/ In v (goutputs g) -> In v (vertices g)) -> (forall v, In v (ginputs g) -> ~ In v (goutputs g)) ->
  exists r h', gflow sp sc h g = Ok (r, h') /\ gflow_post g r.
Proof.
  intros sp sc h g Hsp Hsc W Hio Hd. unfold gflow. destruct (pat_in_run g (ginputs g) [] W) as [pn [E Hp]]; [intros; apply Hio; auto|]. rewrite E. cbn [bind].
  assert (Hpin : forall v, In v pn <-> pin g v) by (intros v; rewrite Hp; unfold pin; simpl; tauto).
  set (P := nodup Nat.eq_dec (goutputs g)).
  assert (HP : forall v, In v P <-> In v (goutputs g)) by (intros v; apply nodup_In).
  assert (HL : forall v, dget v (fold_left (fun l v => dset v 0 l) P []) = if memb v P then Some 0 else None) by (intros; apply init_l).
  assert (L0 : forall v, lf (fold_left (fun l v => dset v 0 l) P []) v = 0) by (intros v; unfold lf; rewrite HL; destruct (memb v P); auto).
  apply (loop_ok g W Hio Hd pn Hpin sp sc Hsp Hsc).
  2:{ rewrite Nat.add_comm. simpl. lia. }
  constructor.
  - apply NoDup_nodup.
  - auto.
  - intros v Hv. right. apply HP. auto.
  - intros v Hv. apply HP. auto.
  - intros v. rewrite <- dget_keys, HL. destruct (memb v P) eqn:X; [apply memb_in in X|apply memb_nin in X]; split; auto; try tauto; eauto. intros [? ?]. discriminate.
  - intros v _. rewrite L0. auto.
  - intros v _. apply L0.
  - intros v. simpl. rewrite HP. tauto.
  - intros v Hv NO. apply HP in Hv. tauto.
  - intros l' c' F. split.
    + intros v Mv Hv. exfalso. destruct (F v Mv) as [_ [A [B _]]]. unfold odd_nb in B. destruct (c' v) as [|w r]; [discriminate|]. destruct (A w (or_introl eq_refl)) as [_ [_ X]]. lia.
    + intros v Hv [_ [X _]]. apply HP in Hv. tauto.
Qed.

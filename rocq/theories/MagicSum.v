(** The terms of a magic state decomposition add up to the diagram, and every term
    has fewer T-like spiders. *)
From Coq Require Import Reals ZArith QArith Qcanon List Bool Arith Lia Permutation.
From Verif Require Import CNum Base ScalarModel ScalarProofs GraphModel GateModel GraphSem SumLemmas GraphProofs GraphOps BfixProofs InvProofs ZXFacts RuleLemmas GadgetProofs TotalProofs GrowProofs GraphAlgModel GraphAlgProofs GraphAlgFacts MagicModel MagicAlg MagicProofs MagicFacts.
Import ListNotations.
Local Open Scope nat_scope.

Section One.
  Variables (g : graph) (vs : list nat) (h : graph) (N : list nat) (k : zw) (p : Z) (l : list fac).
  Hypothesis G : good g vs.
  Hypothesis A : att g vs h N k p l.
  Let L := vs ++ N.
  Lemma one_fac : forall f, In f l -> fin (length L) f.
  Proof using A. intros f Hf. pose proof (at_l _ _ _ _ _ _ _ A) as X. rewrite Forall_forall in X. apply X; auto. Qed.
  Lemma one_b : forall b, In b (vertices h) -> vty h b = BOUNDARY -> In b (vertices g) /\ vty g b = BOUNDARY /\ ~ In b L.
  Proof using A G.
    intros b Hb T. assert (X : ~ In b L).
    { intros X. destruct (In_nth _ _ 0 X) as [i [Hi E]]. destruct (att_in _ _ G _ _ _ _ _ A i Hi) as [_ Z]. unfold nm in Z. fold L in Z. rewrite E in Z. congruence. }
    rewrite (at_t _ _ _ _ _ _ _ A) in T. destruct (mem b N) eqn:M; [discriminate|]. rewrite (at_v _ _ _ _ _ _ _ A) in Hb. apply in_app_or in Hb. apply mem_false in M. tauto.
  Qed.
  Lemma one_e : forall b w, ~ In b L -> edge_type h b w = edge_type g b w.
  Proof using A.
    intros b w X. destruct (at_e _ _ _ _ _ _ _ A b w) as [E|[e [i [j [E1 E2]]]]]; auto. exfalso. apply X.
    apply one_fac in E1. cbn in E1. unfold pair_hit in E2. apply orb_true_iff in E2. rewrite !andb_true_iff, !Nat.eqb_eq in E2. fold L in E2.
    destruct E2 as [[-> _]|[-> _]]; apply nm_in; tauto.
  Qed.
  Lemma one_core : zcore h.
  Proof using A G.
    destruct (go_core _ _ G) as [W NL ZX PH DG B0 RW]. constructor.
    - apply A.
    - intros v. destruct (at_e _ _ _ _ _ _ _ A v v) as [E|[e [i [j [E1 E2]]]]]; [rewrite E; auto|]. exfalso. apply one_fac in E1. cbn in E1. destruct E1 as [I [J D]].
      apply D. apply (nm_inj L); auto; [apply (att_names _ _ G _ _ _ _ _ A)|]. unfold pair_hit in E2. apply orb_true_iff in E2. rewrite !andb_true_iff, !Nat.eqb_eq in E2. fold L in E2. destruct E2 as [[<- <-]|[<- <-]]; auto.
    - intros v Hv. rewrite (at_t _ _ _ _ _ _ _ A). destruct (mem v N) eqn:M; [discriminate|]. apply ZX. rewrite (at_v _ _ _ _ _ _ _ A) in Hv. apply in_app_or in Hv. apply mem_false in M. tauto.
    - intros v Hv. rewrite (at_p _ _ _ _ _ _ _ A) by auto. apply qmod2_range.
    - intros b Hb T. destruct (one_b b Hb T) as [B1 [B2 B3]]. destruct (DG b B1 B2) as [u U]. exists u. intros w. rewrite one_e by auto. apply U.
    - intros b Hb T. destruct (one_b b Hb T) as [B1 [B2 B3]]. rewrite (at_p _ _ _ _ _ _ _ A) by auto. rewrite (ksum_out _ (length L)) by (try apply A; intros i Hi X; apply B3; rewrite <- X; apply nm_in; auto).
      unfold bp. apply mem_spec in B1. rewrite B1, frac_0. apply mem_spec in B1. rewrite (B0 b B1 B2). apply qmod2_0.
    - apply A, RW.
  Qed.
  Lemma one_zinv : zinv g -> zinv h.
  Proof using A G.
    intros Z. apply core_zinv; [apply one_core|]. intros v. rewrite (at_i _ _ _ _ _ _ _ A), (at_o _ _ _ _ _ _ _ A), (zinv_io _ Z v). split.
    - intros [Hv T]. split; [rewrite (at_v _ _ _ _ _ _ _ A); apply in_or_app; auto|]. rewrite (at_t _ _ _ _ _ _ _ A). destruct (mem v N) eqn:M; auto. apply mem_spec in M. exfalso. apply (att_new _ _ _ _ _ _ _ A v M Hv).
    - intros [Hv T]. destruct (one_b v Hv T) as [B1 [B2 _]]. auto.
  Qed.
  Lemma one_internal : internal h = internal g ++ N.
  Proof using A G.
    unfold internal. rewrite (at_v _ _ _ _ _ _ _ A), filter_app. f_equal.
    - apply filter_ext_in. intros v Hv. unfold isB. rewrite (at_t _ _ _ _ _ _ _ A). destruct (mem v N) eqn:M; auto. apply mem_spec in M. exfalso. apply (att_new _ _ _ _ _ _ _ A v M Hv).
    - assert (X : forall v, In v N -> negb (isB h v) = true).
      { intros v Hv. unfold isB. rewrite (at_t _ _ _ _ _ _ _ A). apply mem_spec in Hv. rewrite Hv. reflexivity. }
      clear -X. induction N as [|a M IH]; auto. cbn. rewrite X by (left; auto). f_equal. apply IH. intros; apply X; right; auto.
  Qed.
  Lemma one_names : N = map (nm L) (seq (length vs) (length N)).
  Proof using.
    unfold L. apply (nth_ext _ _ 0 (nm (vs ++ N) 0)); [rewrite map_length, seq_length; auto|]. intros n Hn. rewrite (map_nth (nm (vs ++ N)) _ 0 n), seq_nth by auto. unfold nm. rewrite app_nth2 by lia. f_equal. lia.
  Qed.
  Lemma one_vs : forall x : assignment, map (fun i => x (nm L i)) (seq 0 (length vs)) = map x vs.
  Proof using.
    intros x. apply (nth_ext _ _ (x (nm L 0)) (x 0)); [rewrite !map_length, seq_length; auto|]. intros n Hn. rewrite map_length, seq_length in Hn.
    rewrite (map_nth (fun i => x (nm L i)) _ 0 n), seq_nth, (map_nth x) by auto. cbn. unfold L. rewrite nm_app; auto.
  Qed.
  Lemma one_sum : forall x, sumv N (fun y => ev k * sq2p p * ev (pden l (fun i => y (nm L i))))%C x = tden (k, p, length N, l) (map x vs).
  Proof using A G.
    intros x. rewrite sumv_scal. unfold tden. f_equal. rewrite one_names at 1.
    assert (FL : Forall (fin (length vs + length N)) l) by (rewrite <- app_length; apply A).
    rewrite (sumv_map (seq 0 (length vs + length N)) (fun y => ev (pden l y)) (nm L)).
    - rewrite sumv_zsum by auto. rewrite one_vs. reflexivity.
    - intros y y' H. f_equal. apply (pden_agree _ _ _ _ FL). intros i Hi. apply H, in_seq. lia.
    - intros u v Hu Hv. apply in_seq in Hu, Hv. apply nm_inj; [apply (att_names _ _ G _ _ _ _ _ A)| |]; unfold L; rewrite app_length; lia.
    - intros v Hv. apply in_seq in Hv. apply in_seq. lia.
  Qed.
  Lemma one_sem : forall b, sem h b = sumv (internal g) (fun x => integL (vertices g) g x * tden (k, p, length N, l) (map x vs))%C b.
  Proof using A G.
    intros b. unfold sem. rewrite one_internal, sumv_app. apply sumv_ext. intros x. rewrite <- one_sum, <- (sumv_mult_indep N (integL (vertices g) g)).
    - apply sumv_ext. intros y. rewrite (at_x _ _ _ _ _ _ _ A). reflexivity.
    - intros y v c Hv. apply integL_indep. apply (att_new _ _ _ _ _ _ _ A v Hv).
  Qed.
End One.

(** ** All terms together *)
Lemma csum_sumv : forall (B : Type) (F : B -> assignment -> C) (ts : list B) l x, csum (map (fun t => sumv l (F t) x) ts) = sumv l (fun y => csum (map (fun t => F t y) ts)) x.
Proof.
  intros B F. induction ts as [|t ts IH]; intros l x; cbn [map csum fold_right]; [rewrite sumv_0; auto|]. unfold csum in IH. rewrite IH, <- sumv_plus. reflexivity.
Qed.
Lemma csum_mult : forall (B : Type) (F : B -> C) c ts, csum (map (fun t => c * F t)%C ts) = (c * csum (map F ts))%C.
Proof. intros B F c. induction ts as [|t ts IH]; cbn [map csum fold_right]; [ring|]. unfold csum in IH. rewrite IH. ring. Qed.
(** h is the term t of a decomposition of g at the spiders vs *)
Definition is_term (g : graph) (vs : list nat) (h : graph) (t : term) : Prop :=
  match t with (k, p, n, l) => exists N, length N = n /\ att g vs h N k p l end.
Lemma terms_sum : forall g vs hs ts, good g vs -> Forall2 (is_term g vs) hs ts -> complete (length vs) ts = true ->
  forall b, csum (map (fun h => sem h b) hs) = sem g b.
Proof.
  intros g vs hs ts G F K b.
  assert (E : map (fun h => sem h b) hs = map (fun t => sumv (internal g) (fun x => integL (vertices g) g x * tden t (map x vs))%C b) ts).
  { clear K. induction F as [|h t hs ts T F IH]; auto. cbn [map]. rewrite IH. f_equal. destruct t as [[[k p] n] l]. destruct T as [N [<- A]]. apply (one_sem _ _ _ _ _ _ _ G A). }
  rewrite E, (csum_sumv _ (fun t x => integL (vertices g) g x * tden t (map x vs))%C). unfold sem. apply sumv_ext. intros x. rewrite (csum_mult _ (fun t => tden t (map x vs))).
  rewrite (complete_sum _ _ K) by apply map_length. ring.
Qed.
Lemma mapM_terms : forall m (fs : list (graph -> list nat -> res graph)) ts, Forall2 (term_ok m) fs ts -> forall (F : (graph -> list nat -> res graph) -> res graph) g vs,
  good g vs -> length vs = m -> (forall f, F f = f g vs) -> exists hs, mapM F fs = Ok hs /\ Forall2 (is_term g vs) hs ts.
Proof.
  intros m fs ts H F g vs G L E. induction H as [|f t fs ts T H IH]; [exists []; split; auto|]. destruct IH as [hs [E1 F1]]. destruct (T g vs G L) as [h [N [E2 X]]].
  exists (h :: hs). cbn [mapM]. rewrite E, E2, E1. cbn [bind]. split; auto. constructor; auto. destruct t as [[[k p] n] l]. destruct X as [X1 X2]. exists N. auto.
Qed.

(** ** T-like spiders *)
Definition tlike (p : Qc) : bool := negb (qeqb p 0%Qc) && Z.eqb (ScalarModel.qden p) 4.
Definition tspiders (g : graph) : list nat := filter (fun v => tlike (phase g v)) (vertices g).
Definition tcount (g : graph) : nat := length (tspiders g).
Lemma tl_mod : forall z, qmod2 (frac z 4) = frac (z mod 8) 4.
Proof.
  intros z. rewrite (Z.div_mod z 8) at 1 by lia. rewrite Z.add_comm, <- frac_add, frac_8, qmod2_shift. apply qmod2_id; rewrite this_frac; pose proof (Z.mod_pos_bound z 8 eq_refl).
  - unfold Qle. cbn [Qnum Qden]. lia.
  - unfold Qlt. cbn [Qnum Qden]. lia.
Qed.
Lemma tl_frac : forall z, tlike (qmod2 (frac z 4)) = Z.odd z.
Proof.
  intros z. rewrite tl_mod. assert (O : Z.odd z = Z.odd (z mod 8)).
  { rewrite (Z.div_mod z 8) at 1 by lia. rewrite Z.odd_add, Z.odd_mul. cbn. destruct (Z.odd (z mod 8)); auto. }
  rewrite O. pose proof (Z.mod_pos_bound z 8 eq_refl) as B. generalize dependent (z mod 8)%Z. intros r _ B.
  assert (X : (r = 0 \/ r = 1 \/ r = 2 \/ r = 3 \/ r = 4 \/ r = 5 \/ r = 6 \/ r = 7)%Z) by lia. destruct X as [->|[->|[->|[->|[->|[->|[->| ->]]]]]]]; reflexivity.
Qed.
Lemma tl_quarter : forall p, in02 p -> tlike p = true -> exists z, p = frac z 4 /\ Z.odd z = true.
Proof.
  intros p R H. pose proof H as H0. unfold tlike in H0. apply andb_true_iff in H0. destruct H0 as [_ D]. apply Z.eqb_eq in D. destruct (den4_quarter _ D) as [z E]. exists z. split; auto.
  rewrite <- tl_frac, <- E. rewrite qmod2_id; auto; apply R.
Qed.
Lemma ksum_nm : forall L l i, NoDup L -> Forall (fin (length L)) l -> i < length L -> ksum (nm L) l (nm L i) = ksum (fun i => i) l i.
Proof.
  intros L l i N F Hi. induction F as [|[k j|e a b] l X F IH]; cbn [ksum]; auto. rewrite IH. f_equal. cbn in X.
  destruct (Nat.eqb_spec i j) as [->|D]; [rewrite Nat.eqb_refl; auto|]. destruct (Nat.eqb_spec (nm L i) (nm L j)) as [E|]; auto. exfalso. apply D, (nm_inj L); auto.
Qed.
(** the m replaced spiders are shifted by odd multiples of pi/4, the new ones have even phases *)
Definition tdrop (m : nat) (t : term) : bool :=
  match t with (k, p, n, l) => forallb (fun i => Z.odd (ksum (fun i => i) l i)) (seq 0 m) && forallb (fun i => Z.even (ksum (fun i => i) l i)) (seq m n) end.
Section T.
  Variables (g : graph) (vs : list nat) (h : graph) (N : list nat) (k : zw) (p : Z) (l : list fac).
  Hypothesis G : good g vs.
  Hypothesis A : att g vs h N k p l.
  Lemma t_new : forall v, In v N -> exists i, length vs <= i < length (vs ++ N) /\ v = nm (vs ++ N) i.
  Proof using. intros v Hv. destruct (In_nth _ _ 0 Hv) as [i [Hi E]]. exists (length vs + i). rewrite app_length. split; [lia|]. unfold nm. rewrite app_nth2 by lia. rewrite <- E. f_equal. lia. Qed.
  Lemma t_old : forall v, In v vs -> exists i, i < length vs /\ v = nm (vs ++ N) i.
  Proof using. intros v Hv. destruct (In_nth _ _ 0 Hv) as [i [Hi E]]. exists i. split; auto. rewrite nm_app by auto. auto. Qed.
  Lemma t_phase : forall v, In v (vertices g) -> ~ In v vs -> phase h v = phase g v.
  Proof using A G.
    intros v Hv Nv. assert (NN : ~ In v N) by (intros X; apply (att_new _ _ _ _ _ _ _ A v X Hv)).
    rewrite (at_p _ _ _ _ _ _ _ A) by (rewrite (at_v _ _ _ _ _ _ _ A); apply in_or_app; auto).
    rewrite (ksum_out _ (length (vs ++ N))) by (try apply A; intros i Hi X; assert (Y := nm_in _ _ Hi); rewrite X in Y; apply in_app_or in Y; tauto).
    unfold bp. apply mem_spec in Hv. rewrite Hv, frac_0. apply mem_spec in Hv. rewrite Qcplus_0_r. apply qmod2_id; apply (zc_ph _ (go_core _ _ G) v Hv).
  Qed.
  Lemma t_count : tdrop (length vs) (k, p, length N, l) = true -> (forall v, In v vs -> tlike (phase g v) = true) -> tcount h + length vs = tcount g.
  Proof using A G.
    intros D T. unfold tdrop in D. apply andb_true_iff in D. destruct D as [D1 D2]. rewrite forallb_forall in D1, D2.
    assert (ND := att_names _ _ G _ _ _ _ _ A). assert (FL := at_l _ _ _ _ _ _ _ A).
    assert (HN : forall v, In v N -> tlike (phase h v) = false).
    { intros v Hv. assert (Hh : In v (vertices h)) by (rewrite (at_v _ _ _ _ _ _ _ A); apply in_or_app; auto). rewrite (at_p _ _ _ _ _ _ _ A) by auto.
      unfold bp. replace (mem v (vertices g)) with false by (symmetry; apply mem_false; apply (att_new _ _ _ _ _ _ _ A v Hv)). rewrite Qcplus_0_l, tl_frac.
      destruct (t_new v Hv) as [i [Hi E]]. rewrite E, ksum_nm by (auto; lia). rewrite <- Z.negb_even, D2; auto. apply in_seq. rewrite app_length in Hi. lia. }
    assert (HV : forall v, In v vs -> tlike (phase h v) = false).
    { intros v Hv. assert (Hg := go_in _ _ G v Hv). rewrite (at_p _ _ _ _ _ _ _ A) by (rewrite (at_v _ _ _ _ _ _ _ A); apply in_or_app; auto).
      unfold bp. apply mem_spec in Hg. rewrite Hg. apply mem_spec in Hg. destruct (tl_quarter _ (zc_ph _ (go_core _ _ G) v Hg) (T v Hv)) as [z [E O]]. rewrite E, frac_add, tl_frac.
      destruct (t_old v Hv) as [i [Hi Ei]]. rewrite Ei, ksum_nm by (auto; rewrite app_length; lia). rewrite Z.odd_add, O. rewrite D1; auto. apply in_seq. lia. }
    unfold tcount, tspiders. rewrite (at_v _ _ _ _ _ _ _ A), filter_app, app_length.
    assert (E0 : filter (fun v => tlike (phase h v)) N = []).
    { clear -HN. induction N as [|a M IH]; auto. cbn. rewrite HN by (left; auto). apply IH. intros; apply HN; right; auto. }
    rewrite E0. cbn [length]. rewrite Nat.add_0_r.
    assert (P : Permutation (filter (fun v => tlike (phase g v)) (vertices g)) (vs ++ filter (fun v => tlike (phase h v)) (vertices g))).
    { apply NoDup_Permutation.
      - apply NoDup_filter. apply (zc_wf _ (go_core _ _ G)).
      - apply nodup_cat; [apply G|apply NoDup_filter; apply (zc_wf _ (go_core _ _ G))|]. intros a Ha X. apply filter_In in X. rewrite HV in X by auto. destruct X. discriminate.
      - intros v. rewrite in_app_iff, !filter_In. split.
        + intros [X Y]. destruct (in_dec Nat.eq_dec v vs) as [I|I]; auto. right. rewrite t_phase by auto. auto.
        + intros [X|[X Y]]; [split; [apply (go_in _ _ G); auto|apply T; auto]|]. split; auto. destruct (in_dec Nat.eq_dec v vs) as [I|I]; [auto|]. rewrite <- t_phase by auto. auto. }
    rewrite (Permutation_length P), app_length. lia.
  Qed.
  Lemma t_quarter : allph quarter g -> allph quarter h.
  Proof using A.
    intros Q v Hv. rewrite (at_p _ _ _ _ _ _ _ A) by auto. apply quarter_mod2, quarter_add; [|apply quarter_frac]. unfold bp. destruct (mem v (vertices g)) eqn:M; [|apply quarter_0]. apply Q, mem_spec. auto.
  Qed.
End T.

(** ** Which spiders are picked *)
Lemma vtype_eqb_ZSP : forall t, {t = ZSP} + {t <> ZSP}. Proof. destruct t; auto; right; discriminate. Qed.
Lemma ranking_ok : forall g, wfg g -> exists rk, ranking g = Ok rk /\ dkeys rk = tspiders g.
Proof.
  intros g W. unfold ranking, tspiders.
  assert (X : forall L rk, NoDup L -> incl L (vertices g) -> (forall v, In v L -> ~ In v (dkeys rk)) -> exists rk', foldM (rank_step g) L rk = Ok rk' /\ dkeys rk' = dkeys rk ++ filter (fun v => tlike (phase g v)) L).
  { induction L as [|v L IH]; intros rk N I F; [exists rk; split; auto; cbn; rewrite app_nil_r; auto|]. inversion_clear N. cbn [foldM filter].
    assert (Iv : In v (vertices g)) by (apply I; left; auto).
    unfold rank_step at 1. rewrite (dget_phase _ _ W Iv). cbn [of_opt bind].
    replace (qeqb (phase g v) 0%Qc || negb (Z.eqb (ScalarModel.qden (phase g v)) 4)) with (negb (tlike (phase g v))) by (unfold tlike; destruct (qeqb _ _), (Z.eqb _ _); auto).
    destruct (tlike (phase g v)); cbn [negb].
    - rewrite neighbors_r_ok by auto. cbn [bind].
      assert (Y : exists d, match neighbors g v with [w] => let* t := vtype_r g w in if vtype_eqb t ZSP then let* nw := neighbors_r g w in Ok (length nw - 1) else Ok (length (neighbors g v)) | _ => Ok (length (neighbors g v)) end = Ok d).
      { destruct (neighbors g v) as [|w [|]] eqn:En; eauto. assert (Iw : In w (vertices g)).
        { assert (Z : In w (neighbors g v)) by (rewrite En; left; auto). apply neighbors_spec in Z. destruct (edge_type g v w) eqn:Ee; [|congruence]. eapply edge_in_r; eauto. }
        rewrite vtype_r_ok by auto. cbn [bind]. destruct (vtype_eqb _ _); eauto. rewrite neighbors_r_ok by auto. cbn [bind]. eauto. }
      destruct Y as [d ->]. cbn [bind]. destruct (IH (dset v d rk)) as [rk' [E K]]; auto; [intros u Hu; apply I; right; auto| |].
      { intros u Hu X. apply in_dkeys_dset in X. destruct X as [->|X]; [auto|]. apply (F u); [right; auto|auto]. }
      exists rk'. split; auto. rewrite K, dkeys_dset_notin by (apply F; left; auto). rewrite <- app_assoc. reflexivity.
    - cbn [bind]. apply IH; auto; [intros u Hu; apply I; right; auto|intros u Hu; apply F; right; auto]. }
  destruct (X (vertices g) []) as [rk [E K]]; [apply W|intros u Hu; auto|intros v _ []|]. exists rk. split; auto.
Qed.
Lemma ins_perm : forall v r l, Permutation (ins_desc v r l) ((v, r) :: l).
Proof. induction l as [|[w s] l IH]; cbn [ins_desc]; auto. destruct (Nat.ltb s r); auto. eapply perm_trans; [apply perm_skip, IH|apply perm_swap]. Qed.
Lemma sorted_perm : forall rk, Permutation (sorted_desc rk) (dkeys rk).
Proof.
  intros rk. unfold sorted_desc, dkeys. apply Permutation_map.
  assert (X : forall l a, Permutation (fold_left (fun l e => ins_desc (fst e) (snd e) l) l a) (a ++ l)).
  { induction l as [|[v r] l IH]; intros a; cbn [fold_left]; [rewrite app_nil_r; auto|]. eapply perm_trans; [apply IH|]. cbn [fst snd]. eapply perm_trans; [apply Permutation_app_tail, ins_perm|]. apply (Permutation_middle a l (v, r)). }
  apply (X rk []).
Qed.
Lemma picked_ok : forall b rk k c, NoDup (dkeys rk) -> k <= length rk -> picked b rk k c -> NoDup c /\ incl c (dkeys rk) /\ length c = k.
Proof.
  intros [|] rk k c N K P; [exact P|]. cbn in P. subst c. assert (Q := sorted_perm rk). split; [|split].
  - assert (X : NoDup (sorted_desc rk)) by (apply (Permutation_NoDup (Permutation_sym Q)); auto). rewrite <- (firstn_skipn k) in X. clear -X. induction (firstn k (sorted_desc rk)) as [|a l IH]; [constructor|]. cbn in X. inversion_clear X. constructor; auto. intros Y. apply H. apply in_or_app; auto.
  - intros v Hv. apply (Permutation_in _ Q). rewrite <- (firstn_skipn k (sorted_desc rk)). apply in_or_app; auto.
  - rewrite firstn_length, (Permutation_length Q). unfold dkeys. rewrite map_length. lia.
Qed.
Lemma picked_ex : forall b rk k, NoDup (dkeys rk) -> k <= length rk -> exists c, picked b rk k c.
Proof.
  intros [|] rk k N K; [|eexists; reflexivity]. exists (firstn k (sorted_desc rk)). apply (picked_ok false); auto. reflexivity.
Qed.

(** ** replace_magic_states *)
Definition withg (f : graph -> list nat -> res graph) (g : graph) (vs : list nat) : res graph := let* h := f g vs in Ok (on_scalar (s_add_float MAGIC_GLOBAL) h).
Lemma ok_glob : forall f t, term_ok 6 f t -> term_ok 6 (withg f) (glob t).
Proof.
  intros f [[[k p] n] l] T g vs G L. destruct (T g vs G L) as [h [N [E [LN A]]]]. exists (on_scalar (s_add_float MAGIC_GLOBAL) h), N. unfold withg. rewrite E. cbn [bind]. split; auto. split; auto.
  replace (p - 3)%Z with (p + -3)%Z by lia. apply (att_scalar _ _ _ _ _ _ _ A). apply (n_float _ _ _ v_G).
Qed.
(** the number of spiders replaced when there are n candidates, the number of terms, and the terms *)
Definition kof (n : nat) : nat := if Nat.leb 6 n then 6 else if Nat.leb 2 n then 2 else 1.
Definition terms_of (k : nat) : list term := if Nat.eqb k 6 then terms6 else if Nat.eqb k 2 then terms2 else terms1.
Lemma num_replace_spec : forall rk, num_replace rk = if Nat.eqb (length rk) 0 then None else Some (kof (length rk)).
Proof. intros rk. unfold num_replace, kof. destruct (length rk) as [|[|[|[|[|[|n]]]]]]; reflexivity. Qed.
Lemma kof_le : forall n, n <> 0 -> kof n <= n /\ (kof n = 6 \/ kof n = 2 \/ kof n = 1).
Proof. intros n H. unfold kof. destruct (Nat.leb_spec 6 n); [lia|]. destruct (Nat.leb_spec 2 n); lia. Qed.
Lemma terms_run : forall g g0 k vs, (k = 6 \/ k = 2 \/ k = 1) -> g_copy false g0 = Ok g -> good g vs -> length vs = k ->
  exists hs, replace_terms g0 k vs = Ok hs /\ Forall2 (is_term g vs) hs (terms_of k).
Proof.
  intros g g0 k vs K E G L. unfold replace_terms. rewrite E. cbn [bind]. destruct K as [->|[->| ->]]; cbn [Nat.eqb replace_functions terms_of].
  - pose (fs := [replace_B60; replace_B66; replace_E6; replace_O6; replace_K6; replace_phi1; replace_phi2]).
    destruct (mapM_terms 6 (map withg fs) terms6) with (F := fun f : graph -> list nat -> res graph => f g vs) (g := g) (vs := vs) as [hs [E1 F1]]; auto.
    { unfold fs, terms6. cbn [map]. repeat constructor; apply ok_glob; [apply ok_B60|apply ok_B66|apply ok_E6|apply ok_O6|apply ok_K6|apply ok_phi1|apply ok_phi2]. }
    exists hs. split; auto.
  - destruct (mapM_terms 2 [replace_2_S; replace_2_N] terms2) with (F := fun f : graph -> list nat -> res graph => let* h := f g vs in Ok h) (g := g) (vs := vs) as [hs [E1 F1]]; auto.
    { repeat constructor; [apply ok_2_S|apply ok_2_N]. } { intros f. destruct (f g vs); auto. } exists hs; auto.
  - destruct (mapM_terms 1 [replace_1_0; replace_1_1] terms1) with (F := fun f : graph -> list nat -> res graph => let* h := f g vs in Ok h) (g := g) (vs := vs) as [hs [E1 F1]]; auto.
    { repeat constructor; [apply ok_1_0|apply ok_1_1]. } { intros f. destruct (f g vs); auto. } exists hs; auto.
Qed.
Lemma terms_complete : forall k, k = 6 \/ k = 2 \/ k = 1 -> complete k (terms_of k) = true /\ forallb (tdrop k) (terms_of k) = true.
Proof. intros k [->|[->| ->]]; (split; [|vm_compute; reflexivity]); [apply complete6|apply complete2|apply complete1]. Qed.

(** copying a copy changes no vertex names *)
Lemma recopy : forall h, zinv h -> io_ok h -> vertices h = seq 0 (num_vertices h) -> exists r, g_copy false h = Ok r /\ zinv r /\ io_ok r /\
  vertices r = vertices h /\ ginputs r = ginputs h /\ goutputs r = goutputs h /\
  (forall v, In v (vertices h) -> vty r v = vty h v /\ phase r v = phase h v) /\ forall i y, val r i y = val h i y.
Proof.
  intros h Z N V. destruct (copy_val h Z N) as [r [f [E [I [P [VR [GI [GO [ZR [NR [_ [_ X]]]]]]]]]]]]. exists r. split; auto. split; auto. split; auto.
  assert (F : forall v, In v (vertices h) -> f v = v).
  { assert (M : map f (vertices h) = map (fun v => v) (vertices h)) by (rewrite map_id, <- (is_v _ _ _ I), VR, V; reflexivity).
    intros v Hv. clear -M Hv. induction (vertices h) as [|a l IH]; [destruct Hv|]. cbn in M. injection M as M1 M2. destruct Hv as [<-|Hv]; auto. }
  assert (FM : forall l, incl l (vertices h) -> map f l = l).
  { induction l as [|a l IH]; intros H; auto. cbn. rewrite F by (apply H; left; auto). f_equal. apply IH. intros u Hu. apply H. right; auto. }
  destruct (zinv_incl _ Z) as [I1 I2].
  split; [congruence|]. split; [rewrite GI; auto|]. split; [rewrite GO; auto|]. split; auto.
  intros v Hv. split; [rewrite <- (is_t _ _ _ I v Hv)|rewrite <- (P v Hv)]; rewrite F; auto.
Qed.

(** all T-like vertices are Z spiders *)
Definition tz (g : graph) : Prop := forall v, In v (vertices g) -> tlike (phase g v) = true -> vty g v = ZSP.
Lemma filter_len_map : forall (B : Type) (f : nat -> B) (q : B -> bool) (q' : nat -> bool) l, (forall v, In v l -> q (f v) = q' v) -> length (filter q (map f l)) = length (filter q' l).
Proof. intros B f q q'. induction l as [|a l IH]; intros H; auto. cbn. rewrite H by (left; auto). destruct (q' a); cbn; rewrite IH; auto; intros; apply H; right; auto. Qed.
Theorem magic_sound : forall b g r, zinv g -> io_ok g -> tz g -> replace_magic_states b g r ->
  (tcount g = 0 /\ r = None) \/
  exists hs, tcount g <> 0 /\ r = Some (Ok hs) /\ length hs = (if Nat.leb 6 (tcount g) then 7 else 2) /\
    (forall h, In h hs -> zinv h /\ io_ok h /\ length (ginputs h) = length (ginputs g) /\ length (goutputs h) = length (goutputs g) /\
       tcount h + kof (tcount g) = tcount g /\ (allph quarter g -> allph quarter h) /\ ((forall v, In v (vertices g) -> vty g v = ZSP \/ vty g v = BOUNDARY) -> forall v, In v (vertices h) -> vty h v = ZSP \/ vty h v = BOUNDARY)) /\
    forall i y, csum (map (fun h => val h i y) hs) = val g i y.
Proof.
  intros b g r Z N T R. destruct (copy_val g Z N) as [c [f [E [I [P [V [GI [GO [ZC [NC [_ [_ XC]]]]]]]]]]]]. unfold replace_magic_states in R. rewrite E in R.
  destruct (ranking_ok c (zx_wf _ (zi_zx _ ZC))) as [rk [ER KR]]. rewrite ER, num_replace_spec in R.
  assert (LR : length rk = tcount c) by (unfold tcount; rewrite <- KR; unfold dkeys; rewrite map_length; auto).
  assert (TC : tcount c = tcount g).
  { unfold tcount, tspiders. rewrite (is_v _ _ _ I). apply filter_len_map. intros v Hv. rewrite P; auto. }
  rewrite LR, TC in R. destruct (Nat.eqb_spec (tcount g) 0) as [T0|T0]; [left; auto|]. right. destruct R as [vs [PK ->]].
  destruct (kof_le _ T0) as [K1 K2]. set (k := kof (tcount g)) in *.
  assert (V' : vertices c = seq 0 (num_vertices c)) by (unfold num_vertices at 1; rewrite V, seq_length; reflexivity).
  destruct (recopy c ZC NC V') as [d [ED [ZD [ND [VD [ID [OD [TD XD]]]]]]]].
  assert (WC := zx_wf _ (zi_zx _ ZC)).
  assert (NR : NoDup (dkeys rk)) by (rewrite KR; apply NoDup_filter, WC).
  destruct (picked_ok b rk k vs NR ltac:(lia) PK) as [NV [IV LV]].
  assert (TS : forall v, In v vs -> In v (vertices d) /\ tlike (phase d v) = true /\ vty d v = ZSP).
  { intros v Hv. apply IV in Hv. rewrite KR in Hv. apply filter_In in Hv. destruct Hv as [Hv Tv]. rewrite VD. split; auto. destruct (TD v Hv) as [-> ->]. split; auto.
    rewrite (is_v _ _ _ I) in Hv. apply in_map_iff in Hv. destruct Hv as [u [<- Hu]]. rewrite (is_t _ _ _ I u Hu). apply T; auto. rewrite <- P; auto. }
  assert (G : good d vs) by (constructor; [apply zinv_core; auto|auto|intros v Hv; apply (TS v Hv)|intros v Hv; apply (TS v Hv)]).
  destruct (terms_run d c k vs K2 ED G LV) as [hs [EH FH]]. exists hs. destruct (terms_complete k K2) as [CT DT].
  split; auto. split; [rewrite EH; auto|]. split.
  { assert (Q : length hs = length (terms_of k)) by (clear -FH; induction FH; cbn; auto). rewrite Q. unfold k, kof. destruct (Nat.leb 6 (tcount g)); auto. destruct (Nat.leb 2 (tcount g)); auto. }
  assert (EL : forall h, In h hs -> exists t, In t (terms_of k) /\ is_term d vs h t).
  { clear -FH. induction FH as [|h t hs ts X FH IH]; intros h' []; [subst; exists t; split; [left|]; auto|]. destruct (IH h' H) as [t' [A B]]. exists t'. split; [right|]; auto. }
  split.
  - intros h Hh. destruct (EL h Hh) as [t [Ht X]]. rewrite forallb_forall in DT. specialize (DT t Ht). destruct t as [[[k0 p0] n0] l0]. destruct X as [M [LM A]]. subst n0.
    split; [apply (one_zinv _ _ _ _ _ _ _ G A ZD)|]. split; [unfold io_ok; rewrite (at_i _ _ _ _ _ _ _ A), (at_o _ _ _ _ _ _ _ A); auto|].
    split; [rewrite (at_i _ _ _ _ _ _ _ A), ID, GI, map_length; auto|]. split; [rewrite (at_o _ _ _ _ _ _ _ A), OD, GO, map_length; auto|].
    split. { rewrite <- LV at 1. assert (DT' : tdrop (length vs) (k0, p0, length M, l0) = true) by (rewrite LV; auto). rewrite (t_count _ _ _ _ _ _ _ G A DT') by (intros v Hv; apply (TS v Hv)). rewrite <- TC. unfold tcount, tspiders. rewrite VD. f_equal. apply filter_ext_in. intros v Hv. destruct (TD v Hv) as [_ ->]. auto. }
    split.
    + intros Q. apply (t_quarter _ _ _ _ _ _ _ A). intros v Hv. rewrite VD in Hv. destruct (TD v Hv) as [_ ->]. rewrite (is_v _ _ _ I) in Hv. apply in_map_iff in Hv. destruct Hv as [u [<- Hu]]. rewrite P by auto. apply Q; auto.
    + intros Q v Hv. rewrite (at_t _ _ _ _ _ _ _ A). destruct (mem v M) eqn:E0; auto. apply mem_false in E0. rewrite (at_v _ _ _ _ _ _ _ A) in Hv. apply in_app_or in Hv. destruct Hv as [Hv|]; [|tauto].
      rewrite VD in Hv. destruct (TD v Hv) as [-> _]. rewrite (is_v _ _ _ I) in Hv. apply in_map_iff in Hv. destruct Hv as [u [<- Hu]]. rewrite (is_t _ _ _ I u Hu). apply Q; auto.
  - intros i y. rewrite <- XC, <- XD. unfold val at 2. assert (CT' : complete (length vs) (terms_of k) = true) by (rewrite LV; auto). rewrite <- (terms_sum d vs hs _ G FH CT'). f_equal. apply map_ext_in. intros h Hh. destruct (EL h Hh) as [t [_ X]]. destruct t as [[[k0 p0] n0] l0]. destruct X as [M [_ A]].
    unfold val. rewrite (at_i _ _ _ _ _ _ _ A), (at_o _ _ _ _ _ _ _ A). reflexivity.
Qed.
Theorem magic_ex : forall b g, zinv g -> io_ok g -> exists r, replace_magic_states b g r.
Proof.
  intros b g Z N. unfold replace_magic_states. destruct (copy_val g Z N) as [c [f [E [_ [_ [_ [_ [_ [ZC _]]]]]]]]]. rewrite E.
  assert (WC := zx_wf _ (zi_zx _ ZC)). destruct (ranking_ok c WC) as [rk [ER KR]]. rewrite ER, num_replace_spec. destruct (Nat.eqb_spec (length rk) 0) as [|T]; [eauto|].
  destruct (picked_ex b rk (kof (length rk))) as [vs P]; [rewrite KR; apply NoDup_filter, WC|apply kof_le; auto|]. eauto.
Qed.

(** Supplementarity: the matches found, their effect, and the loop. *)
From Coq Require Import Reals ZArith QArith Qcanon List Bool Arith Lia Lra Permutation FunctionalExtensionality.
From Verif Require Import LinModel LinProofs CNum Base ScalarModel ScalarProofs GraphModel GraphSem SumLemmas GraphProofs GraphOps RulesModel RuleLemmas
  SpiderProofs IsoProofs IdProofs LcompProofs PivotProofs PivotMatch GadgetProofs GrowProofs StoreProofs ColorProofs SimpModel SimpProofs PairProofs RuleShape TermProofs InvProofs RoundProofs BfixProofs TotalProofs GrowTotal
  FullTotal Decide RunEx ZXFacts IsoExact RedFacts GateModel CircSpec GateProofs GateMask AmpProofs CircGraphModel CircGraphProofs CircGraphFacts VerifyProofs GraphAlgModel GraphAlgProofs GraphAlgFacts
  ComposeProofs ApplyProofs ExtractModel ExtractSem ExtractMap ExtractClean ExtractCz ExtractFront ExtractNbrs TidyModel TidySub CopyProofs CopyFacts.
Import ListNotations.
Open Scope nat_scope.

(** ** The matches found *)
Definition smv (m : smatch) : nat := let '(v, w, two, ns) := m in v.
Definition smw (m : smatch) : nat := let '(v, w, two, ns) := m in w.
Definition smn (m : smatch) : list nat := let '(v, w, two, ns) := m in ns.
Definition sm_ok (g : graph) (m : smatch) : Prop := let '(v, w, two, ns) := m in
  In v (vertices g) /\ In w (vertices g) /\ v <> w /\ non_clifford (phase g v) = true /\ non_clifford (phase g w) = true /\ NoDup ns /\
  (forall u, In u ns <-> edge_type g v u <> None /\ u <> w) /\ (forall u, In u ns <-> edge_type g w u <> None /\ u <> v) /\
  (if two then edge_type g v w <> None /\ (even_pi (phase g v + phase g w)%Qc || odd_pi (phase g v - phase g w)%Qc = true)
   else edge_type g v w = None /\ (odd_pi (phase g v - phase g w)%Qc || odd_pi (phase g v + phase g w)%Qc = true)).
Definition sfar (m1 m2 : smatch) : Prop :=
  (forall u, In u [smv m2; smw m2] \/ In u (smn m2) -> u <> smv m1 /\ u <> smw m1) /\ ~ In (smv m2) (smn m1) /\ ~ In (smw m2) (smn m1).
(** [sfar], or the second match is of isolated spiders *)
Definition sweak (g : graph) (m1 m2 : smatch) : Prop := sfar m1 m2 \/ neighbors g (smv m2) = [].
Lemma fop_impl : forall A (R S : A -> A -> Prop) l, (forall a b, In a l -> In b l -> R a b -> S a b) -> ForallOrdPairs R l -> ForallOrdPairs S l.
Proof.
  intros A R S l H F. induction F as [|a l Fa F IH]; [constructor|]. rewrite Forall_forall in Fa. constructor.
  - apply Forall_forall. intros b Hb. apply H; simpl; auto.
  - apply IH. intros x y Hx Hy. apply H; simpl; auto.
Qed.
Section Match.
  Variables (so : list nat -> list nat) (g : graph).
  Hypothesis SO : set_order so.
  Hypothesis W : wfg g.
  Hypothesis NL : noloop g.
  Definition parok (cands : list nat) (par : list (list nat * list nat)) : Prop := forall k l w, In (k, l) par -> In w l ->
    In w (vertices g) /\ non_clifford (phase g w) = true /\ ~ In w cands /\ forall u, In u k <-> edge_type g w u <> None.
  Lemma par_get_in : forall k d l, par_get k d = Some l -> exists k', In (k', l) d /\ forall u, In u k <-> In u k'.
  Proof.
    intros k d. induction d as [|[k' l'] d IH]; intros l H; [discriminate|]. cbn [par_get] in H. destruct (set_eqb k k') eqn:E.
    - injection H as <-. exists k'. split; [simpl; auto|]. apply set_eqb_spec; exact E.
    - destruct (IH l H) as [k2 [I2 S2]]. exists k2. split; auto. simpl; auto.
  Qed.
  Lemma par_append_ok : forall cands v d, ~ In v cands -> In v (vertices g) -> non_clifford (phase g v) = true -> parok cands d -> parok cands (par_append (neighbors g v) v d).
  Proof.
    intros cands v d Nv Iv Pv. induction d as [|[k' l'] d IH]; intros H k l w Hk Hw.
    - destruct Hk as [E|[]]. injection E as <- <-. destruct Hw as [<-|[]]. repeat split; auto; intros; apply neighbors_spec; auto.
    - cbn [par_append] in Hk. destruct (set_eqb (neighbors g v) k') eqn:E.
      + destruct Hk as [X|Hk]; [|apply (H k l w); simpl; auto]. injection X as <- <-. apply in_app_iff in Hw. destruct Hw as [Hw|[<-|[]]]; [apply (H k' l' w); simpl; auto|].
        repeat split; auto; intros X; [apply neighbors_spec, (proj1 (set_eqb_spec _ _) E); auto|apply (proj1 (set_eqb_spec _ _) E), neighbors_spec; auto].
      + destruct Hk as [X|Hk]; [injection X as <- <-; apply (H k' l' w); simpl; auto|]. apply (IH (fun a b c p q => H a b c (or_intror p) q) k l w); auto.
  Qed.
  Lemma parok_sub : forall c c' d, incl c' c -> parok c d -> parok c' d.
  Proof. intros c c' d I H k l w Hk Hw. destruct (H k l w Hk Hw) as [A [B [D E]]]. split; [exact A|]. split; [exact B|]. split; [intros X; apply D, I, X|exact E]. Qed.
  Record tkok (cands disc taken D : list nat) : Prop := mktk {
    tk_sub : incl D taken; tk_n : forall u t, In u D -> edge_type g u t <> None -> In t taken;
    tk_d : forall u, In u taken -> In u D \/ exists d, In d D /\ edge_type g u d <> None;
    tk_c : forall u, In u taken -> ~ In u cands \/ In u disc }.
  Lemma match_supp_weak : forall cands disc taken par D, NoDup cands -> incl cands (vertices g) -> parok cands par -> tkok cands disc taken D ->
    (forall m, In m (match_supp_loop so g cands disc taken par) -> sm_ok g m /\ ~ In (smv m) taken /\ (~ In (smw m) taken \/ neighbors g (smv m) = []) /\ (forall u, In u (smn m) -> ~ In u taken)) /\
    ForallOrdPairs (sweak g) (match_supp_loop so g cands disc taken par).
  Proof.
    induction cands as [|v cands IH]; intros disc taken par D ND IC PO TK; [split; [intros m []|constructor]|].
    inversion ND as [|? ? Nv ND']; subst. assert (IC' : incl cands (vertices g)) by (intros z Hz; apply IC; simpl; auto). assert (Iv : In v (vertices g)) by (apply IC; simpl; auto).
    assert (PO' : parok cands par) by (eapply parok_sub; [|exact PO]; intros z Hz; simpl; auto).
    assert (TK' : tkok cands disc taken D). { destruct TK as [T1 T2 T3 T4]. constructor; auto. intros u Hu. destruct (T4 u Hu) as [X|X]; auto. left. intros Y. apply X. simpl; auto. }
    cbn [match_supp_loop]. destruct (nmem v disc) eqn:M; [apply (IH _ _ _ D); auto|]. destruct (non_clifford (phase g v)) eqn:NC; cbn [negb]; [|apply (IH _ _ _ D); auto].
    destruct (existsb (fun u => nmem u taken) (neighbors g v)) eqn:EX; [apply (IH _ _ _ D); auto|].
    assert (FREE : forall u, edge_type g v u <> None -> ~ In u taken).
    { intros u Hu X. apply neighbors_spec in Hu. assert (Y : existsb (fun u => nmem u taken) (neighbors g v) = true) by (apply existsb_exists; exists u; split; auto; apply nmem_spec; auto). congruence. }
    assert (Nvt : ~ In v taken). { intros X. destruct (tk_c _ _ _ _ TK v X) as [Y|Y]; [apply Y; simpl; auto|]. apply nmem_spec in Y. congruence. }
    assert (STEP : forall w two ns disc', sm_ok g (v, w, two, ns) -> ~ In w taken \/ neighbors g v = [] -> ~ In w cands \/ In w (neighbors g v) -> (forall u, In u ns -> edge_type g v u <> None) -> disc' = disc ++ neighbors g v ->
      forall par', parok cands par' ->
      (forall m, In m ((v, w, two, ns) :: match_supp_loop so g cands disc' (taken ++ [v; w] ++ neighbors g v) par') -> sm_ok g m /\ ~ In (smv m) taken /\ (~ In (smw m) taken \/ neighbors g (smv m) = []) /\ (forall u, In u (smn m) -> ~ In u taken)) /\
      ForallOrdPairs (sweak g) ((v, w, two, ns) :: match_supp_loop so g cands disc' (taken ++ [v; w] ++ neighbors g v) par')).
    { intros w two ns disc' OK Nwt Cw Hns -> par' PO2.
      assert (TK2 : tkok cands (disc ++ neighbors g v) (taken ++ [v; w] ++ neighbors g v) (v :: w :: D)).
      { destruct TK' as [T1 T2 T3 T4]. destruct OK as [_ [Iw [Dvw [_ [_ [_ [HN1 [HN2 _]]]]]]]]. constructor.
        - intros u [<-|[<-|Hu]]; rewrite !in_app_iff; simpl; auto.
        - intros u t [<-|[<-|Hu]] E; rewrite !in_app_iff, neighbors_spec; simpl; auto.
          + destruct (Nat.eq_dec t v); [subst; auto|]. assert (X : In t ns) by (apply HN2; auto). apply HN1 in X. tauto.
          + left. eapply T2; eauto.
        - intros u Hu. rewrite !in_app_iff, neighbors_spec in Hu. simpl in *. destruct Hu as [Hu|[[<-|[<-|[]]]|Hu]]; auto.
          + destruct (T3 u Hu) as [X|[d [X Y]]]; [auto|right; exists d; auto].
          + right. exists v. split; auto. rewrite (wf_sym g W). auto.
        - intros u Hu. rewrite !in_app_iff in Hu. rewrite in_app_iff. simpl in Hu. destruct Hu as [Hu|[[<-|[<-|[]]]|Hu]]; auto.
          + destruct (T4 u Hu); auto.
          + destruct Cw; auto. }
      destruct (IH (disc ++ neighbors g v) (taken ++ [v; w] ++ neighbors g v) par' (v :: w :: D) ND' IC' PO2 TK2) as [H1 H2]. split.
      - intros m [<-|Hm].
        + split; [exact OK|]. cbn [smv smw smn]. split; [exact Nvt|]. split; [exact Nwt|]. intros u Hu. apply FREE, Hns, Hu.
        + destruct (H1 m Hm) as [A [B [E F]]]. rewrite !in_app_iff in B, E. split; auto. split; [tauto|]. split; [destruct E; [left; tauto|auto]|]. intros u Hu X. apply (F u Hu). rewrite !in_app_iff. auto.
      - constructor; auto. apply Forall_forall. intros m Hm. destruct (H1 m Hm) as [A [B [E F]]]. destruct E as [E|E]; [|right; exact E]. left. rewrite !in_app_iff in B, E. simpl in B, E. unfold sfar. cbn [smv smw smn].
        split; [|split].
        + intros u [[<-|[<-|[]]]|Hu]; [split; intros X; apply B; right; left; rewrite X; auto|split; intros X; apply E; right; left; rewrite X; auto|].
          specialize (F u Hu). rewrite !in_app_iff in F. simpl in F. split; intros X; apply F; right; left; rewrite X; auto.
        + intros X. apply Hns in X. rewrite neighbors_spec in B. tauto.
        + intros X. apply Hns in X. rewrite neighbors_spec in E. tauto. }
    set (first := match par_get (neighbors g v) par with Some l => find (fun w => odd_pi (phase g v - phase g w)%Qc || odd_pi (phase g v + phase g w)%Qc) l | None => None end).
    destruct first as [w|] eqn:EF.
    - unfold first in EF. destruct (par_get (neighbors g v) par) as [l|] eqn:PG; [|discriminate]. apply find_some in EF. destruct EF as [Hw Ho].
      destruct (par_get_in _ _ _ PG) as [k' [Hk Sk]]. destruct (PO k' l w Hk Hw) as [Iw [NCw [Ncw Ek]]].
      assert (SAME : forall u, edge_type g w u <> None <-> edge_type g v u <> None) by (intros u; rewrite <- Ek, <- Sk; apply neighbors_spec).
      assert (Dvw : v <> w) by (intros ->; apply Ncw; simpl; auto).
      assert (Evw : edge_type g v w = None). { destruct (edge_type g v w) eqn:X; auto. exfalso. apply (proj2 (SAME w)); [congruence|]. apply NL. }
      apply STEP; auto.
      + unfold sm_ok. split; auto. split; auto. split; auto. split; auto. split; auto. split; [apply neighbors_nd; auto|]. split; [|split; auto].
        * intros u. rewrite neighbors_spec. split; [|tauto]. intros X. split; auto. intros ->. congruence.
        * intros u. rewrite neighbors_spec, <- SAME. split; [|tauto]. intros X. split; auto. intros ->. rewrite SAME, NL in X. congruence.
      + destruct (neighbors g v) as [|t l0] eqn:EN; [auto|]. left. rewrite <- EN in *. intros X. destruct (tk_d _ _ _ _ TK w X) as [Y|[d [Y Z]]].
        * assert (Et : edge_type g v t <> None) by (apply neighbors_spec; rewrite EN; simpl; auto).
          apply (FREE t Et). apply (tk_n _ _ _ _ TK w t Y). apply SAME; auto.
        * apply (FREE d); [apply SAME; auto|]. apply (tk_sub _ _ _ _ TK); auto.
      + left. intros X. apply Ncw. simpl; auto.
      + intros u Hu. apply neighbors_spec; auto.
    - clear EF first. assert (PA : parok cands (par_append (neighbors g v) v par)) by (apply par_append_ok; auto).
      match goal with |- context [if ?b then _ else _] => destruct b end; [apply (IH _ _ _ D); auto|].
      destruct (find _ (so (neighbors g v))) as [w|] eqn:FI; [|apply (IH _ _ _ D); auto].
      apply find_some in FI. destruct FI as [Hw C]. apply (Permutation_in _ (SO (neighbors g v))) in Hw. apply neighbors_spec in Hw.
      apply andb_true_iff in C. destruct C as [C C4]. apply andb_true_iff in C. destruct C as [C C3]. apply andb_true_iff in C. destruct C as [C1' C2]. apply negb_true_iff in C2. apply Nat.eqb_eq in C3.
      assert (Dvw : v <> w) by (intros ->; rewrite NL in Hw; congruence).
      assert (Hw' : edge_type g w v <> None) by (rewrite (wf_sym g W); auto).
      assert (SYM : (forall u, edge_type g v u <> None -> u <> w -> edge_type g w u <> None) /\ (forall u, edge_type g w u <> None -> u <> v -> edge_type g v u <> None)).
      { unfold symdiff_len in C3. unfold setminus in C3. set (A := filter _ (neighbors g v)) in C3. set (B := filter _ (neighbors g w)) in C3.
        assert (Aw : In w A). { unfold A. rewrite filter_In, neighbors_spec, negb_true_iff. split; auto. apply nmem_false. rewrite neighbors_spec, NL. congruence. }
        assert (Bv : In v B). { unfold B. rewrite filter_In, neighbors_spec, negb_true_iff. split; auto. apply nmem_false. rewrite neighbors_spec, NL. congruence. }
        assert (LA : length A = 1 /\ length B = 1) by (destruct A, B; try (destruct Aw; fail); try (destruct Bv; fail); cbn [length] in *; lia).
        assert (SA : forall u, In u A -> u = w) by (destruct A as [|x [|]]; cbn in LA; try lia; destruct Aw as [->|[]]; intros u [<-|[]]; auto).
        assert (SB : forall u, In u B -> u = v) by (destruct B as [|x [|]]; cbn in LA; try lia; destruct Bv as [->|[]]; intros u [<-|[]]; auto).
        split; intros u Hu Du.
        - destruct (nmem u (neighbors g w)) eqn:X; [apply nmem_spec, neighbors_spec in X; auto|]. exfalso. apply Du, SA. unfold A. rewrite filter_In, neighbors_spec, X. auto.
        - destruct (nmem u (neighbors g v)) eqn:X; [apply nmem_spec, neighbors_spec in X; auto|]. exfalso. apply Du, SB. unfold B. rewrite filter_In, neighbors_spec, X. auto. }
      destruct SYM as [S1 S2]. assert (Iw : In w (vertices g)) by (apply (edge_type_in_l g w v); auto).
      apply STEP; auto.
      + unfold sm_ok. split; auto. split; auto. split; auto. split; auto. split; auto. split; [apply NoDup_filter, neighbors_nd; auto|]. split; [|split; auto].
        * intros u. rewrite filter_In, neighbors_spec, negb_true_iff, Nat.eqb_neq. tauto.
        * intros u. rewrite filter_In, neighbors_spec, negb_true_iff, Nat.eqb_neq. split.
          -- intros [X Y]. split; auto. intros ->. rewrite NL in X. congruence.
          -- intros [X Y]. split; auto. intros ->. rewrite NL in X. congruence.
      + right. apply neighbors_spec; auto.
      + intros u Hu. apply filter_In in Hu. apply neighbors_spec. tauto.
  Qed.
End Match.
Lemma match_supp_ok : forall so g, set_order so -> wfg g -> noloop g -> (forall v, In v (vertices g) -> non_clifford (phase g v) = true -> neighbors g v <> []) ->
  forall cands disc taken par D, NoDup cands -> incl cands (vertices g) -> parok g cands par -> tkok g cands disc taken D ->
  (forall m, In m (match_supp_loop so g cands disc taken par) -> sm_ok g m /\ ~ In (smv m) taken /\ ~ In (smw m) taken /\ (forall u, In u (smn m) -> ~ In u taken)) /\
  ForallOrdPairs sfar (match_supp_loop so g cands disc taken par).
Proof.
  intros so g SO W NL NI cands disc taken par D ND IC PO TK. destruct (match_supp_weak so g SO W NL cands disc taken par D ND IC PO TK) as [H1 H2].
  assert (NE : forall m, In m (match_supp_loop so g cands disc taken par) -> neighbors g (smv m) <> []).
  { intros m Hm. destruct (H1 m Hm) as [OK _]. destruct m as [[[v w] two] ns]. destruct OK as [Iv [_ [_ [NC _]]]]. cbn [smv]. apply NI; auto. }
  split.
  - intros m Hm. destruct (H1 m Hm) as [A [B [[E|E] F]]]; [auto|]. destruct (NE m Hm E).
  - revert H2. apply fop_impl. intros a b _ Hb [X|X]; auto. destruct (NE b Hb X).
Qed.
(** matches that remove no spider twice are apart *)
Lemma sweak_far : forall g ms, wfg g -> (forall m, In m ms -> sm_ok g m) -> NoDup (flat_map (fun m => [smv m; smw m]) ms) -> ForallOrdPairs (sweak g) ms -> ForallOrdPairs sfar ms.
Proof.
  intros g ms W OK ND F. induction F as [|m ms Fa F IH]; [constructor|]. cbn [flat_map app] in ND. inversion ND as [|? ? N1 ND1]; subst. inversion ND1 as [|? ? N2 ND2]; subst.
  constructor; [|apply IH; auto; intros x Hx; apply OK; simpl; auto]. rewrite Forall_forall in Fa. apply Forall_forall. intros b Hb. destruct (Fa b Hb) as [X|X]; auto.
  assert (OKb := OK b (or_intror Hb)). assert (OKm := OK m (or_introl eq_refl)). destruct b as [[[v w] two] ns]. destruct m as [[[v1 w1] two1] ns1]. cbn [smv smw smn] in *.
  destruct OKb as [_ [_ [_ [_ [_ [_ [HN1 [HN2 _]]]]]]]]. destruct OKm as [_ [_ [_ [_ [_ [_ [HM1 [HM2 _]]]]]]]].
  assert (IV : forall u, edge_type g v u = None). { intros u. destruct (edge_type g v u) eqn:E; auto. assert (Y : In u (neighbors g v)) by (apply neighbors_spec; congruence). rewrite X in Y. destruct Y. }
  assert (NS : forall u, ~ In u ns) by (intros u Hu; apply HN1 in Hu; rewrite IV in Hu; tauto).
  assert (IW : forall u, edge_type g w u = None).
  { intros u. destruct (edge_type g w u) eqn:E; auto. exfalso. destruct (Nat.eq_dec u v) as [->|D]; [rewrite (wf_sym g W), IV in E; discriminate|]. apply (NS u). apply HN2. split; auto. congruence. }
  assert (AV : In v (flat_map (fun m => [smv m; smw m]) ms) /\ In w (flat_map (fun m => [smv m; smw m]) ms)) by (split; apply in_flat_map; eexists; (split; [exact Hb|]); simpl; auto).
  destruct AV as [AV AW]. split; [|split].
  - intros u [[<-|[<-|[]]]|Hu]; [| |destruct (NS u Hu)]; split; intros Y; cbn [smv smw] in Y; subst; first [apply N1; right; assumption|apply N2; assumption].
  - intros Y. apply HM1 in Y. destruct Y as [Y _]. rewrite (wf_sym g W), IV in Y. congruence.
  - intros Y. apply HM1 in Y. destruct Y as [Y _]. rewrite (wf_sym g W), IW in Y. congruence.
Qed.

(** ** One match *)
Lemma wires_prod : forall (x : assignment) c ns, cprod (fun n => (sq2p (-1) * sgn (c && x n))%C) ns = (sq2p (- Z.of_nat (length ns)) * (if c then cprod (fun n => sgn (x n)) ns else C1))%C.
Proof.
  intros x c ns. induction ns as [|n ns IH].
  - cbn [cprod length]. change (- Z.of_nat 0)%Z with 0%Z. rewrite sq2p_0. destruct c; ring.
  - cbn [cprod length]. rewrite IH. replace (- Z.of_nat (S (length ns)))%Z with ((-1) + - Z.of_nat (length ns))%Z by lia. rewrite sq2p_add. destruct c; cbn [andb]; [ring|]. change (sgn false) with C1. ring.
Qed.
Lemma cprod_on : forall (f : nat -> C) ns L, NoDup ns -> NoDup L -> incl ns L -> (forall u, In u L -> ~ In u ns -> f u = C1) -> cprod f L = cprod f ns.
Proof.
  intros f ns L N1 N2 I H. assert (P : Permutation L (ns ++ without ns L)).
  { apply nodup_same_perm; auto.
    - apply RuleLemmas.nodup_app; auto; [apply NoDup_filter; auto|]. intros u Hu X. apply in_without in X. tauto.
    - intros u. rewrite in_app_iff, in_without. split; [|intros [X|X]; [apply I; auto|tauto]]. intros X. destruct (in_dec Nat.eq_dec u ns); auto. }
  rewrite (cprod_perm _ _ _ _ P), cprod_app, (cprod_1 _ f (without ns L)); [ring|]. intros u Hu. apply in_without in Hu. apply H; tauto.
Qed.
Lemma sgn_prod_sq : forall (x : assignment) ns, (cprod (fun n => sgn (x n)) ns * cprod (fun n => sgn (x n)) ns = C1)%C.
Proof. intros x ns. rewrite <- cprod_mult. apply cprod_1. intros a _. apply sgn_sq. Qed.

(** summing out two spiders with the same neighbours *)
Lemma supp_out : forall g R v w ns y, wfg g -> NoDup R -> In v R -> In w R -> v <> w -> vty g v = ZSP -> vty g w = ZSP -> NoDup ns -> incl ns R ->
  (forall n, In n ns -> vty g n = ZSP /\ edge_type g v n = Some HADAMARD /\ edge_type g w n = Some HADAMARD) -> ~ In v ns -> ~ In w ns ->
  (forall u, In u R -> u <> v -> u <> w -> ~ In u ns -> edge_type g v u = None /\ edge_type g w u = None) ->
  semL R g y = sumv (notB g (without [v; w] R)) (fun x => integL (without [v; w] R) g x * (sq2p (-2 * Z.of_nat (length ns)) *
    (wt (edge_type g v w) false false + (ephase (phase g v) true * wt (edge_type g v w) true false + ephase (phase g w) true * wt (edge_type g v w) false true) * cprod (fun n => sgn (x n)) ns
     + ephase (phase g v) true * ephase (phase g w) true * wt (edge_type g v w) true true)))%C y.
Proof.
  intros g R v w ns y W N Iv Iw D Tv Tw Nn In' Hn Nvn Nwn Hu. set (R0 := without [v; w] R).
  assert (H0 : forall u, In u R0 <-> In u R /\ u <> v /\ u <> w) by (intros u; unfold R0; rewrite in_without; simpl; intuition).
  assert (PR : Permutation R ([v; w] ++ R0)).
  { apply nodup_same_perm; auto.
    - constructor; [simpl; rewrite H0; intuition|]. constructor; [rewrite H0; intuition|]. apply NoDup_filter. auto.
    - intros u. simpl. rewrite H0. split.
      + intros X. destruct (Nat.eq_dec u v); [left; auto|]. destruct (Nat.eq_dec u w); [right; left; auto|right; right; auto].
      + intros [<-|[<-|X]]; tauto. }
  unfold semL, notB.
  assert (PF : Permutation (filter (fun u => negb (isB g u)) R) (filter (fun u => negb (isB g u)) R0 ++ [v; w])).
  { eapply perm_trans; [apply filter_perm; exact PR|]. rewrite filter_app. cbn [filter]. unfold isB at 1 2. rewrite Tv, Tw. cbn [vtype_eqb negb]. apply Permutation_app_comm. }
  rewrite (sumv_perm _ _ PF) by (apply NoDup_filter; auto). rewrite sumv_app. apply sumv_ext. intros x.
  assert (Nv : ~ In v R0) by (rewrite H0; tauto). assert (Nw : ~ In w R0) by (rewrite H0; tauto).
  assert (Xv : isX g v = false) by (unfold isX; rewrite Tv; auto). assert (Xw : isX g w = false) by (unfold isX; rewrite Tw; auto).
  assert (NR : NoDup R0) by (apply NoDup_filter; auto).
  assert (IR : incl ns R0). { intros u X. apply H0. split; [apply In'; auto|]. split; intros ->; contradiction. }
  set (s := cprod (fun n => sgn (x n)) ns).
  assert (Q : forall c d, integL R g (upd (upd x v c) w d) =
     (integL R0 g x * (ephase (phase g v) c * ephase (phase g w) d * wt (edge_type g v w) c d * (sq2p (- Z.of_nat (length ns)) * (if c then s else C1)) * (sq2p (- Z.of_nat (length ns)) * (if d then s else C1))))%C).
  { intros c d. rewrite (integL_perm g _ _ _ W PR), integL_app, !integL_indep by auto. cbn [cprod pprod].
    rewrite upd_same, (upd_other _ w d v), upd_same by auto. unfold pw, isB. rewrite Tv, Tw. cbn [vtype_eqb].
    rewrite (ew_plain g v w) by auto.
    assert (Y : forall a e, edge_type g a = edge_type g v \/ edge_type g a = edge_type g w -> isX g a = false -> (forall n, In n ns -> edge_type g a n = Some HADAMARD) -> (forall u, In u R0 -> ~ In u ns -> edge_type g a u = None) ->
      cprod (fun n => ew g a n e (upd (upd x v c) w d n)) R0 = (sq2p (- Z.of_nat (length ns)) * (if e then s else C1))%C).
    { intros a e _ Xa Ha Hb. rewrite (cprod_on _ ns R0); auto.
      - unfold s. rewrite <- wires_prod. apply cprod_ext. intros n Xn. assert (Jn := IR n Xn). apply H0 in Jn. rewrite !upd_other by tauto.
        assert (Tn : isX g n = false) by (unfold isX; rewrite (proj1 (Hn n Xn)); auto). rewrite ew_plain, Ha by auto. reflexivity.
      - intros u Ju Nu. unfold ew. rewrite Hb; auto. }
    rewrite (Y v c), (Y w d); auto; try (intros n Xn; apply Hn; auto; fail); try (intros u Ju Nu; apply H0 in Ju; apply Hu; tauto).
    ring. }
  cbn [sumv]. rewrite !Q. replace (-2 * Z.of_nat (length ns))%Z with (- Z.of_nat (length ns) + - Z.of_nat (length ns))%Z by lia. rewrite sq2p_add.
  assert (SS := sgn_prod_sq x ns). fold s in SS. set (q := sq2p (- Z.of_nat (length ns))). unfold ephase at 1 2 3 4. cbn [ephase].
  transitivity (integL R0 g x * (q * q * (wt (edge_type g v w) false false + (cexp (phase g v) * wt (edge_type g v w) true false + cexp (phase g w) * wt (edge_type g v w) false true) * s + cexp (phase g v) * cexp (phase g w) * wt (edge_type g v w) true true * (s * s))))%C; [unfold ephase; ring|].
  rewrite SS. unfold ephase. ring.
Qed.

(** the two identities of each kind, in terms of a = e^{i alpha}, b = e^{i beta} *)
Lemma odd_cexp : forall p, odd_pi p = true -> cexp p = (- C1)%C.
Proof. intros p H. unfold odd_pi in H. apply qeqb_eq in H. rewrite <- cexp_qmod2, H. rewrite cexp_1. reflexivity. Qed.
Lemma even_cexp : forall p, even_pi p = true -> cexp p = C1.
Proof. intros p H. unfold even_pi in H. apply qeqb_eq in H. rewrite <- cexp_qmod2, H. apply cexp_0. Qed.
Lemma cexp_double : forall a, cexp (Qcz 2 * a)%Qc = (cexp a * cexp a)%C.
Proof. intros a. rewrite <- cexp_add. f_equal. change (Qcz 2) with (1 + 1)%Qc. ring. Qed.
Lemma cexp_neg : forall a, (cexp (- a)%Qc * cexp a = C1)%C.
Proof. intros a. rewrite <- cexp_add. replace (- a + a)%Qc with 0%Qc by ring. apply cexp_0. Qed.

(** [g] is [g0] with phases changed at the vertices [P] only *)
Record sst (g0 : graph) (P : list nat) (g : graph) : Prop := mksst {
  ss_wf : wfg g; ss_fr : same_frame g0 g; ss_adj : gadj g = gadj g0;
  ss_ph : forall u, ~ In u P -> phase g u = phase g0 u; ss_P : forall u, In u P -> In u (vertices g0) /\ vty g0 u = ZSP;
  ss_all : forall Q, pclosed Q -> allph Q g0 -> allph Q g }.
Lemma sst_vs : forall g0 P g, sst g0 P g -> vertices g = vertices g0.
Proof. intros g0 P g H. apply (ss_fr _ _ _ H). Qed.
Lemma sst_ty : forall g0 P g u, sst g0 P g -> vty g u = vty g0 u.
Proof. intros g0 P g u H. apply same_frame_vty. apply (ss_fr _ _ _ H). Qed.
Lemma sst_edge : forall g0 P g s t, sst g0 P g -> edge_type g s t = edge_type g0 s t.
Proof. intros g0 P g s t H. unfold edge_type. rewrite (ss_adj _ _ _ H). reflexivity. Qed.
Lemma sst_refl : forall g, wfg g -> sst g [] g.
Proof. intros g W. constructor; auto; [apply same_frame_refl|intros u []]. Qed.
Lemma sst_scalar : forall g0 P g f, sst g0 P g -> sst g0 P (on_scalar f g).
Proof. intros g0 P g f H. destruct H. constructor; auto. apply on_scalar_wfg; auto. Qed.
Lemma sst_more : forall g0 P g Q, sst g0 P g -> (forall u, In u Q -> In u (vertices g0) /\ vty g0 u = ZSP) -> sst g0 (P ++ Q) g.
Proof.
  intros g0 P g Q H HQ. destruct H. constructor; auto.
  - intros u Hu. apply ss_ph0. rewrite in_app_iff in Hu. tauto.
  - intros u Hu. apply in_app_iff in Hu. destruct Hu; auto.
Qed.
Lemma sst_add : forall g0 P g ns a, sst g0 P g -> quarter a -> (forall u, In u ns -> In u (vertices g0) /\ vty g0 u = ZSP) -> sst g0 (P ++ ns) (add_phases ns a g).
Proof.
  intros g0 P g ns a H Qa Hn. assert (H' := H). destruct H. destruct (add_phases_spec (vertices g) ns a g) as [A1 [A2 [A3 [A4 [A5 _]]]]]; auto.
  { apply ss_wf0. }
  { intros v Hv. destruct (Hn v Hv) as [I T]. rewrite (sst_vs _ _ _ H'). split; auto. split; auto. unfold isB. rewrite (sst_ty _ _ _ _ H'), T. auto. }
  constructor; auto.
  - eapply same_frame_trans; eauto.
  - congruence.
  - intros u Hu. rewrite in_app_iff in Hu. rewrite A5 by tauto. apply ss_ph0. tauto.
  - intros u Hu. apply in_app_iff in Hu. destruct Hu; auto.
  - intros Q C AQ. apply allph_add_phases; auto. intros v Hv. rewrite (sst_vs _ _ _ H'). apply Hn; auto.
Qed.
Definition sdom (g : graph) : Prop := zinv g /\ glike g /\ forall v, In v (vertices g) -> non_clifford (phase g v) = true -> neighbors g v <> [].

Lemma sm_facts : forall g v w two ns, zinv g -> glike g -> sm_ok g (v, w, two, ns) -> vty g v = ZSP /\ vty g w = ZSP /\
  (forall n, In n ns -> In n (vertices g) /\ vty g n = ZSP /\ edge_type g v n = Some HADAMARD /\ edge_type g w n = Some HADAMARD) /\ ~ In v ns /\ ~ In w ns /\
  (forall u, u <> v -> u <> w -> ~ In u ns -> edge_type g v u = None /\ edge_type g w u = None) /\
  edge_type g v w = (if two then Some HADAMARD else None).
Proof.
  intros g v w two ns Z GL [Iv [Iw [D [Cv [Cw [N [H1 [H2 H3]]]]]]]]. assert (W := zx_wf _ (zi_zx _ Z)). assert (NL := zx_noloop _ (zi_zx _ Z)).
  assert (NC : forall u, In u (vertices g) -> non_clifford (phase g u) = true -> vty g u = ZSP).
  { intros u Iu Cu. destruct (proj1 GL u Iu) as [T|T]; auto. rewrite (zi_ph _ Z u Iu T) in Cu. discriminate. }
  assert (Tv := NC v Iv Cv). assert (Tw := NC w Iw Cw). split; auto. split; auto.
  assert (HH : forall a b, vty g a = ZSP -> vty g b = ZSP -> edge_type g a b <> None -> edge_type g a b = Some HADAMARD).
  { intros a b Ta Tb E. destruct (edge_type g a b) as [e|] eqn:X; [|congruence]. f_equal. apply (proj2 GL a b); auto. }
  split.
  { intros n Hn. assert (X1 := proj1 (H1 n) Hn). assert (X2 := proj1 (H2 n) Hn). assert (In' : In n (vertices g)) by (apply (edge_type_in_l g n v); rewrite (wf_sym g W); tauto).
    assert (Tn : vty g n = ZSP).
    { destruct (proj1 GL n In') as [T|T]; auto. exfalso. destruct (zi_deg _ Z n In' T) as [u0 Hu]. apply D. transitivity u0; [apply Hu|symmetry; apply Hu]; rewrite (wf_sym g W); tauto. }
    split; auto. split; auto. split; apply HH; tauto. }
  split; [intros X; apply H1 in X; rewrite NL in X; tauto|]. split; [intros X; apply H2 in X; rewrite NL in X; tauto|]. split.
  - intros u Uv Uw Nu. split.
    + destruct (edge_type g v u) eqn:E; auto. exfalso. apply Nu, H1. split; auto. congruence.
    + destruct (edge_type g w u) eqn:E; auto. exfalso. apply Nu, H2. split; auto. congruence.
  - destruct two; [apply HH; tauto|tauto].
Qed.
Lemma integL_node : forall L p g x, integL L (on_scalar (s_add_node p) g) x = (integL L g x * (C1 + cexp p))%C.
Proof. intros. apply integL_scalar. apply add_node_number. Qed.

Lemma supp_one_ok : forall g0 P g rem m, zinv g0 -> glike g0 -> sst g0 P g -> sm_ok g0 m -> ~ In (smv m) rem -> ~ In (smw m) rem -> ~ In (smv m) P -> ~ In (smw m) P ->
  (forall u, In u (smn m) -> ~ In u rem) ->
  exists g', supp_one (g, rem) m = (g', rem ++ [smv m; smw m]) /\ sst g0 (P ++ smn m) g' /\
  forall y, semL (without (rem ++ [smv m; smw m]) (vertices g0)) g' y = semL (without rem (vertices g0)) g y.
Proof.
  intros g0 P g rem [[[v w] two] ns] Z GL S OK Nv Nw Pv Pw Nr. cbn [smv smw smn] in *.
  destruct (sm_facts g0 v w two ns Z GL OK) as [Tv [Tw [Hn [Nvn [Nwn [Hu Evw]]]]]]. destruct OK as [Iv [Iw [D [Cv [Cw [Nn [H1 [H2 H3]]]]]]]].
  assert (W0 := zx_wf _ (zi_zx _ Z)). assert (W := ss_wf _ _ _ S). set (R := without rem (vertices g0)).
  assert (ER : without (rem ++ [v; w]) (vertices g0) = without [v; w] R) by (unfold R; rewrite without_without; reflexivity). rewrite ER.
  assert (HR : forall u, In u R <-> In u (vertices g0) /\ ~ In u rem) by (intros u; unfold R; apply in_without).
  assert (NR : NoDup R) by (apply NoDup_filter, wf_nd; auto).
  assert (OUT := fun y => supp_out g R v w ns y W NR).
  assert (SO : forall y, semL R g y = sumv (notB g (without [v; w] R)) (fun x => integL (without [v; w] R) g x * (sq2p (-2 * Z.of_nat (length ns)) *
    (wt (edge_type g v w) false false + (ephase (phase g v) true * wt (edge_type g v w) true false + ephase (phase g w) true * wt (edge_type g v w) false true) * cprod (fun n => sgn (x n)) ns
     + ephase (phase g v) true * ephase (phase g w) true * wt (edge_type g v w) true true)))%C y).
  { intros y. apply OUT; auto; rewrite ?HR; auto; try (rewrite (sst_ty _ _ _ _ S); auto).
    - intros u X. apply HR. split; [apply Hn; auto|auto].
    - intros n X. rewrite (sst_ty _ _ _ _ S), !(sst_edge _ _ _ _ _ S). apply Hn in X. tauto.
    - intros u _ X1 X2 X3. rewrite !(sst_edge _ _ _ _ _ S). apply Hu; auto. }
  clear OUT. rewrite (sst_edge _ _ _ _ _ S), Evw in SO. unfold ephase in SO.
  assert (PV : phase g v = phase g0 v) by (apply (ss_ph _ _ _ S); auto). assert (PW : phase g w = phase g0 w) by (apply (ss_ph _ _ _ S); auto). rewrite PV, PW in SO.
  assert (HQ : forall u, In u ns -> In u (vertices g0) /\ vty g0 u = ZSP) by (intros u X; apply Hn in X; tauto).
  unfold supp_one. rewrite !PV, !PW. change (phase (on_scalar (s_add_power (-2 * Z.of_nat (length ns))) g) v) with (phase g v).
  assert (EQ : forall g', sst g0 (P ++ ns) g' -> forall F, (forall y, semL R g y = sumv (notB g (without [v; w] R)) (fun x => integL (without [v; w] R) g x * F x)%C y) ->
     (forall x, integL (without [v; w] R) g' x = (integL (without [v; w] R) g x * F x)%C) -> forall y, semL (without [v; w] R) g' y = semL R g y).
  { intros g' S' F HF HI y. rewrite HF. unfold semL, notB. rewrite (filter_ext (fun u => negb (isB g' u)) (fun u => negb (isB g u))).
    - apply sumv_ext. exact HI.
    - intros u. unfold isB. rewrite (sst_ty _ _ _ _ S), (sst_ty _ _ _ _ S'). reflexivity. }
  assert (ADD : forall h x, sst g0 P h -> integL (without [v; w] R) (add_phases ns 1%Qc h) x = (integL (without [v; w] R) h x * cprod (fun n => sgn (x n)) ns)%C).
  { intros h x Sh. destruct (add_phases_spec (without [v; w] R) ns 1%Qc h) as [_ [_ [_ [_ [_ A]]]]]; [apply Sh|apply NoDup_filter; auto| |].
    - intros u X. split; [|split].
      + apply in_without. rewrite HR. split; [split; [apply Hn; auto|auto]|]. intros [<-|[<-|[]]]; contradiction.
      + rewrite (sst_vs _ _ _ Sh). apply Hn; auto.
      + unfold isB. rewrite (sst_ty _ _ _ _ Sh), (proj2 (HQ u X)). auto.
    - rewrite A. f_equal. apply cprod_ext. intros u _. apply ephase_1. }
  set (a := cexp (phase g0 v)) in *. set (b := cexp (phase g0 w)) in *. assert (NA := cexp_neg (phase g0 v)). fold a in NA. set (a' := cexp (- phase g0 v)%Qc) in *.
  assert (C1a : cexp (Qcz 2 * phase g0 v + 1)%Qc = (- (a * a))%C) by (rewrite cexp_add, cexp_double, cexp_1; fold a; ring).
  assert (C2a : cexp (Qcz 2 * phase g0 v)%Qc = (a * a)%C) by (rewrite cexp_double; reflexivity).
  destruct two; cbn [negb].
  - destruct H3 as [_ H3]. assert (S0 : forall p q n, sst g0 P (on_scalar (s_add_node p) (on_scalar (s_add_power q) (on_scalar (s_add_power n) g)))) by (intros; repeat apply sst_scalar; auto).
    destruct (even_pi (phase g0 v + phase g0 w)%Qc) eqn:E.
    + assert (AB : (a * b = C1)%C) by (unfold a, b; rewrite <- cexp_add; apply even_cexp; auto).
      eexists. split; [reflexivity|]. split; [apply sst_add; auto; [repeat apply sst_scalar; auto|apply quarter_1]|].
      eapply EQ; [apply sst_add; auto; [repeat apply sst_scalar; auto|apply quarter_1]|exact SO|].
      intros x. rewrite ADD by (repeat apply sst_scalar; auto). rewrite integL_sphase, integL_node, !integL_power. rewrite C2a. fold a'. cbn [wt].
      set (s := cprod _ ns). cbn [andb]. change (sgn false) with C1. change (sgn true) with (- C1)%C. set (q := sq2p (-2 * Z.of_nat (length ns))). set (I0 := integL _ g x).
      transitivity (I0 * q * sq2p (-1) * (a' + a * (a' * a)) * s)%C; [ring|]. rewrite NA.
      assert (B : b = a') by (transitivity ((a' * a) * b)%C; [rewrite NA; ring|transitivity (a' * (a * b))%C; [ring|rewrite AB; ring]]).
      transitivity (I0 * (q * (sq2p (-1) * (C1 - a * b + (a + b) * s))))%C; [|ring]. rewrite AB, B. ring.
    + cbn [orb] in H3. assert (AB : (a = - b)%C).
      { unfold a, b. replace (phase g0 v) with ((phase g0 v - phase g0 w) + phase g0 w)%Qc by ring. rewrite cexp_add, (odd_cexp _ H3). ring. }
      eexists. split; [reflexivity|]. split; [apply sst_more; auto|].
      eapply EQ; [apply sst_more; auto|exact SO|]. intros x. rewrite integL_node, !integL_power. rewrite C2a. cbn [wt].
      set (s := cprod _ ns). cbn [andb]. change (sgn false) with C1. change (sgn true) with (- C1)%C. rewrite AB. ring.
  - destruct H3 as [_ H3]. assert (S0 : forall p n, sst g0 P (on_scalar (s_add_node p) (on_scalar (s_add_power n) g))) by (intros; repeat apply sst_scalar; auto).
    destruct (odd_pi (phase g0 v + phase g0 w)%Qc) eqn:E.
    + assert (AB : (a * b = - C1)%C) by (unfold a, b; rewrite <- cexp_add; apply odd_cexp; auto).
      eexists. split; [reflexivity|]. split; [apply sst_add; auto; [repeat apply sst_scalar; auto|apply quarter_1]|].
      eapply EQ; [apply sst_add; auto; [repeat apply sst_scalar; auto|apply quarter_1]|exact SO|].
      intros x. rewrite ADD by (repeat apply sst_scalar; auto). rewrite integL_sphase, integL_node, !integL_power. rewrite C1a, cexp_add, cexp_1. fold a'. cbn [wt].
      set (s := cprod _ ns). set (q := sq2p (-2 * Z.of_nat (length ns))). set (I0 := integL _ g x).
      transitivity (I0 * q * (- a' + a * (a' * a)) * s)%C; [ring|]. rewrite NA.
      assert (B : b = (- a')%C) by (transitivity ((a' * a) * b)%C; [rewrite NA; ring|transitivity (a' * (a * b))%C; [ring|rewrite AB; ring]]).
      transitivity (I0 * (q * (C1 + a * b + (a + b) * s)))%C; [|ring]. rewrite AB, B. ring.
    + rewrite orb_false_r in H3. assert (AB : (a = - b)%C).
      { unfold a, b. replace (phase g0 v) with ((phase g0 v - phase g0 w) + phase g0 w)%Qc by ring. rewrite cexp_add, (odd_cexp _ H3). ring. }
      eexists. split; [reflexivity|]. split; [apply sst_more; auto|].
      eapply EQ; [apply sst_more; auto|exact SO|]. intros x. rewrite integL_node, !integL_power. rewrite C1a. cbn [wt].
      set (s := cprod _ ns). rewrite AB. ring.
Qed.

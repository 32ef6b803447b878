(** One vertex of tensorfy keeps the invariant *)
From Coq Require Import Reals ZArith QArith Qcanon List Bool Arith Lia Permutation FunctionalExtensionality.
From Verif Require Import CNum Base ScalarModel ScalarProofs GraphModel RulesModel GraphSem SumLemmas GraphProofs RuleLemmas InvProofs BfixProofs TotalProofs GraphAlgProofs TensorModel TensorNp TensorSpider TensorPos TensorForm.
Import ListNotations.
Open Scope nat_scope.

(** Every input comes before its neighbour, and no two inputs are connected *)
Definition layout (g : graph) : Prop := forall i n, In i (ginputs g) -> edge_type g i n <> None -> before g i n = true /\ ~ In n (ginputs g).
Definition no_iso_x (g : graph) : Prop := forall v, In v (vertices g) -> vty g v = XSP -> neighbors g v <> [].
Fixpoint ord (g : graph) (i : nat) (L : list label) : Prop :=
  match L with
  | [] => i = length (ginputs g)
  | Inp j :: L => j = i /\ ord g (S i) L
  | Leg v :: L => (In v (ginputs g) \/ i = length (ginputs g)) /\ ord g i L
  end.
Record tinv (g : graph) (D W : list nat) (T : tensor) (ind : dict (list nat)) (L : list label) (r : C) : Prop := mkti {
  ti_form : form g T L W r;
  ti_W : forall v, In v W <-> In v (ginputs g) \/ In v D;
  ti_nd : NoDup W;
  ti_lab : forall v, In (Leg v) L -> In v W;
  ti_ind : forall v, dget v ind = if nmem v W then Some (poss v L) else None;
  ti_cnt : forall v, In v W -> length (poss v L) = length (filter (fun n => negb (nmem n W)) (neighbors g v)) + (if nmem v (goutputs g) then 1 else 0);
  ti_ord : ord g 0 L }.

Lemma ord_app : forall g v m L i, ord g i L -> ord g i (L ++ repeat (Leg v) m).
Proof.
  intros g v m. induction L as [|[j|w] L IH]; intros i H; cbn in *.
  - subst i. induction m as [|m IHm]; cbn; auto.
  - destruct H. auto.
  - destruct H. auto.
Qed.
Lemma filter_mapS : forall q l, filter q (map S l) = map S (filter (fun p => q (S p)) l).
Proof. induction l as [|a l IH]; auto. cbn. destruct (q (S a)); cbn; rewrite IH; auto. Qed.
Lemma ord_filter : forall g L i q, ord g i L -> (forall p, p < length L -> q p = false -> exists v, lab L p = Leg v) -> ord g i (map (lab L) (filter q (seq 0 (length L)))).
Proof.
  intros g. induction L as [|l L IH]; intros i q H HQ; auto. cbn [length seq filter]. rewrite <- seq_shift, filter_mapS.
  assert (E : map (lab (l :: L)) (map S (filter (fun p => q (S p)) (seq 0 (length L)))) = map (lab L) (filter (fun p => q (S p)) (seq 0 (length L)))) by (rewrite map_map; apply map_ext; auto).
  assert (HQ' : forall p, p < length L -> q (S p) = false -> exists v, lab L p = Leg v) by (intros p Lp Q; destruct (HQ (S p)) as [v Hv]; [cbn; lia|auto|exists v; auto]).
  destruct (q 0) eqn:Q0; cbn [map]; rewrite E.
  - cbn [lab nth]. destruct l as [j|v]; cbn [ord] in *; destruct H; split; auto.
  - destruct (HQ 0) as [v Hv]; [cbn; lia|auto|]. cbn in Hv. subst l. cbn in H. destruct H. apply IH; auto.
Qed.
Lemma ord_rest : forall g L contr i, ord g i L -> (forall p, In p contr -> exists v, lab L p = Leg v) -> ord g i (rest L contr).
Proof. intros g L contr i H HC. apply ord_filter; auto. intros p _ Q. apply negb_false_iff, nmem_spec in Q. auto. Qed.
Lemma nth_rep : forall A (a d : A) n j, j < n -> nth j (repeat a n) d = a.
Proof. intros. apply (repeat_spec n). apply nth_In. rewrite repeat_length. auto. Qed.
Lemma nmem_cons : forall a v l, nmem a (v :: l) = Nat.eqb a v || nmem a l.
Proof. reflexivity. Qed.
Lemma vertex_tensor_ok : forall g v, zinv g -> io_ok g -> no_iso_x g -> In v (vertices g) -> ~ In v (ginputs g) ->
  exists t d, vertex_tensor g v (length (neighbors g v)) = Ok (d, t) /\ d = length (neighbors g v) + (if nmem v (goutputs g) then 1 else 0) /\
    sform t (pw g v) (repeat (lw (isX g v)) d).
Proof.
  intros g v Z IO NX Hv NI. assert (ZX := zi_zx _ Z). assert (W := zx_wf _ ZX).
  assert (TY : dget v (gty g) = Some (vty g v)).
  { unfold vty. destruct (dget v (gty g)) eqn:E; auto. exfalso. apply dget_none in E. apply E. apply (wf_ty _ W); auto. }
  assert (PH : dget v (gphase g) = Some (phase g v)).
  { unfold phase. destruct (dget v (gphase g)) eqn:E; auto. exfalso. apply dget_none in E. apply E. apply (wf_ph _ W); auto. }
  unfold vertex_tensor, vtype_r. rewrite TY. cbn [of_opt bind]. destruct (nmem v (goutputs g)) eqn:O.
  - apply nmem_spec in O. destruct (zx_io _ ZX v (or_intror O)) as [_ B]. assert (B' := B). unfold isB in B. apply vtype_eqb_eq in B. destruct (zi_deg _ Z v Hv B) as [u U].
    assert (LE : length (neighbors g v) = 1).
    { rewrite (nodup_len (neighbors g v) [u]); auto; [apply neighbors_nd; auto|repeat constructor; auto|]. intros a. rewrite neighbors_spec, U. cbn. intuition. }
    rewrite LE, B. cbn [Nat.eqb negb vtype_eqb]. exists t_id2, 2. do 2 (split; [reflexivity|]). unfold isX. rewrite B. cbn [vtype_eqb]. assert (F := id_form).
    replace (pw g v) with (fun _ : bool => C1); auto. apply functional_extensionality. intros b. unfold pw. rewrite B'. auto.
  - apply nmem_false in O. rewrite PH. cbn [of_opt bind]. rewrite Nat.add_0_r.
    assert (NB : vty g v <> BOUNDARY) by (intros B; destruct (zi_io _ Z v Hv B); auto). assert (NH := zx_zx _ ZX v Hv).
    assert (EP : pw g v = ephase (phase g v)).
    { apply functional_extensionality. intros b. unfold pw, isB. destruct (vtype_eqb (vty g v) BOUNDARY) eqn:E; auto. apply vtype_eqb_eq in E. contradiction. }
    rewrite EP. unfold isX. destruct (vty g v) eqn:E; try congruence.
    + exists (Z_to_tensor (length (neighbors g v)) (phase g v)), (length (neighbors g v)). do 2 (split; [reflexivity|]). apply z_form.
    + exists (X_to_tensor (length (neighbors g v)) (phase g v)), (length (neighbors g v)). do 2 (split; [reflexivity|]). apply x_form. intros LE. apply length_zero_iff_nil in LE. apply (NX v Hv E LE).
Qed.

Lemma split_perm : forall A (f : A -> bool) l, Permutation (filter (fun a => negb (f a)) l ++ filter f l) l.
Proof.
  induction l as [|a l IH]; auto. cbn. destruct (f a); cbn; [|constructor; auto]. rewrite <- Permutation_middle. constructor; auto.
Qed.
Lemma filter_cons2 : forall v W l, filter (fun n => negb (nmem n (v :: W))) l = filter (fun n => negb (Nat.eqb n v)) (filter (fun n => negb (nmem n W)) l).
Proof.
  induction l as [|a l IH]; auto. cbn [filter]. rewrite nmem_cons, negb_orb, IH. destruct (nmem a W); cbn [negb andb filter]; rewrite ?andb_false_r, ?andb_true_r; auto.
Qed.
Lemma step_ok : forall g D v E W T ind L r, zinv g -> io_ok g -> no_iso_x g -> layout g -> order g = D ++ v :: E -> tinv g D W T ind L r ->
  exists W' T' ind' L', tensor_step g (T, ind) v = Ok (T', ind') /\ tinv g (D ++ [v]) W' T' ind' L' r.
Proof.
  intros g D v E W T ind L r Z IO NX LY OR TI. destruct TI as [TF TW TN TL TD TC TO]. assert (ZX := zi_zx _ Z). assert (WF := zx_wf _ ZX).
  assert (Hv : In v (vertices g)) by (apply order_in; rewrite OR; apply in_app_iff; right; left; auto).
  assert (NE : neighbors_r g v = Ok (neighbors g v)).
  { unfold neighbors_r, neighbors. destruct (dget v (gadj g)) eqn:A; auto. exfalso. apply dget_none in A. apply A. exact Hv. }
  unfold tensor_step. rewrite NE. cbn [bind]. destruct (nmem v (ginputs g)) eqn:VI.
  - apply nmem_spec in VI. destruct (zx_io _ ZX v (or_introl VI)) as [_ B]. unfold isB in B. apply vtype_eqb_eq in B.
    assert (TY : dget v (gty g) = Some BOUNDARY).
    { rewrite <- B. unfold vty. destruct (dget v (gty g)) eqn:A; auto. exfalso. apply dget_none in A. apply A. apply (wf_ty _ WF); auto. }
    unfold vtype_r. rewrite TY. cbn [of_opt bind vtype_eqb negb]. exists W, T, ind, L. split; auto. constructor; auto.
    intros w. rewrite TW, in_app_iff. cbn. intuition. subst. auto.
  - apply nmem_false in VI. destruct (vertex_tensor_ok g v Z IO NX Hv VI) as [t [d [VT [ED SF]]]]. rewrite VT. cbn [bind fst snd].
    assert (ND := neighbors_nd g v WF). assert (OV := order_nodup g (wf_nd _ WF)). rewrite OR in OV.
    assert (NW : ~ In v W). { rewrite TW. intros [A|A]; auto. apply NoDup_remove_2 in OV. apply OV. apply in_app_iff; auto. }
    assert (SY : forall n, In n (neighbors g v) <-> In v (neighbors g n)) by (intros n; rewrite !neighbors_spec, (wf_sym _ WF v n); reflexivity).
    assert (BW : forall n, In n (neighbors g v) -> before g n v = true <-> In n W).
    { intros n Hn. assert (Vn : In n (vertices g)). { apply neighbors_spec in Hn. destruct (edge_type g v n) eqn:A; [|congruence]. eapply edge_in_r; eauto. }
      rewrite TW, (order_before g D v E (wf_nd _ WF) OR n Vn). split; auto. intros [A|A]; auto. apply (order_before g D v E (wf_nd _ WF) OR n Vn). apply LY; auto. apply SY in Hn. apply neighbors_spec; auto. }
    set (nn0 := filter (fun n => before g n v) (neighbors g v)). set (nh := filter (is_had g v) nn0). set (ns := filter (fun n => negb (is_had g v n)) nn0). set (nn := ns ++ nh).
    assert (PN : Permutation nn nn0) by apply split_perm. assert (N0 : NoDup nn0) by (apply NoDup_filter; auto). assert (N1 : NoDup nn) by (eapply Permutation_NoDup; [symmetry; exact PN|auto]).
    assert (IN0 : forall n, In n nn <-> In n (neighbors g v) /\ In n W).
    { intros n. rewrite (Permutation_in' eq_refl PN). unfold nn0. rewrite filter_In. split; intros [A B]; split; auto; apply (BW n A); auto. }
    assert (LK : length nn <= length (neighbors g v)) by (apply NoDup_incl_length; auto; intros n A; apply IN0 in A; tauto).
    assert (LH : length nn = length ns + length nh) by (unfold nn; apply app_length).
    assert (Ld : length nn <= d) by (subst d; lia).
    destruct (hads_ok (length nh) (isX g v) d t (pw g v)) as [t' [HT SF']]; [lia|auto|]. fold nn0 nh. rewrite HT. cbn [bind]. fold ns nn.
    assert (SPL : repeat (lw (isX g v)) (d - length nh) ++ repeat (lw (negb (isX g v))) (length nh) = repeat (lw (isX g v)) (d - length nn) ++ (repeat (lw (isX g v)) (length ns) ++ repeat (lw (negb (isX g v))) (length nh))).
    { rewrite app_assoc, <- repeat_app. do 2 f_equal. lia. }
    rewrite SPL in SF'. clear SPL.
    destruct (pop_shift_ok L nn ind) as [contr [ind1 [PS [LC [CJ [NC ID]]]]]]; auto.
    { intros w. rewrite TD. destruct (nmem w W); auto. }
    { intros n Hn. apply IN0 in Hn. destruct Hn as [Hn Wn]. split; [rewrite TD, (proj2 (nmem_spec _ _) Wn); discriminate|]. intros A. assert (C := TC n Wn). rewrite A in C. cbn in C.
      assert (F : In v (filter (fun n => negb (nmem n W)) (neighbors g n))). { apply filter_In. split; [apply SY; auto|]. apply negb_true_iff, nmem_false. auto. }
      set (fl := filter (fun n => negb (nmem n W)) (neighbors g n)) in *. clearbody fl. destruct fl; [destruct F|cbn in C; lia]. }
    rewrite PS. cbn [bind fst snd].
    assert (CP : forall p, In p contr -> exists j, j < length nn /\ p = nth j contr 0 /\ p < length L /\ lab L p = Leg (nth j nn 0)).
    { intros p Ip. apply (In_nth _ _ 0) in Ip. destruct Ip as [j [Lj <-]]. rewrite LC in Lj. specialize (CJ j Lj). apply in_poss in CJ. exists j. tauto. }
    assert (R : inr (length L) contr). { split; auto. intros p Ip. destruct (CP p Ip) as [j H]. tauto. }
    assert (KL : length contr <= length L). { assert (X := free_len _ _ R). lia. }
    set (m := d - length nn) in *.
    destruct (contract g T L W r v t' (pw g v) (repeat (lw (isX g v)) m) (repeat (lw (isX g v)) (length ns) ++ repeat (lw (negb (isX g v))) (length nh)) contr (repeat (Leg v) m)) as [T' [TD' TF']]; auto.
    { rewrite LC, LH, app_length, !repeat_length. auto. }
    { rewrite !repeat_length. auto. }
    { intros x i2 Li. rewrite repeat_length in Li. apply legs_repeat; auto. }
    { intros x. unfold part. cbn [cprod pprod].
      rewrite (cprod_nbrs g v W nn (fun u => ew g v u (x v) (x u))); auto.
      2:{ intros n. rewrite IN0, neighbors_spec. tauto. } 2:{ intros n A. unfold ew. rewrite A. auto. }
      rewrite (cprod_nth (fun u => ew g v u (x v) (x u))), LC.
      rewrite (cprod_ext _ (fun j => (legw g (lab L (nth j contr 0)) x false * nth j (repeat (lw (isX g v)) (length ns) ++ repeat (lw (negb (isX g v))) (length nh)) dlt (x v) false + legw g (lab L (nth j contr 0)) x true * nth j (repeat (lw (isX g v)) (length ns) ++ repeat (lw (negb (isX g v))) (length nh)) dlt (x v) true)%C) (fun j => ew g v (nth j nn 0) (x v) (x (nth j nn 0)))); [ring|].
      intros j J. apply in_seq in J. destruct J as [_ J]. cbn in J. assert (A := CJ j J). apply in_poss in A. destruct A as [_ A]. rewrite A. cbn [legw].
      assert (In (nth j nn 0) nn) as B by (apply nth_In; auto). apply IN0 in B. destruct B as [B _]. apply neighbors_spec in B. destruct (edge_type g v (nth j nn 0)) as [e|] eqn:EE; [|congruence].
      rewrite <- (wire g (nth j nn 0) v (x (nth j nn 0)) (x v) e EE).
      assert (Q : nth j (repeat (lw (isX g v)) (length ns) ++ repeat (lw (negb (isX g v))) (length nh)) dlt = lw (xorb (isX g v) (match e with HADAMARD => true | _ => false end))); [|rewrite Q; auto].
      destruct (lt_dec j (length ns)) as [LT|GE].
      - rewrite app_nth1, nth_rep by (rewrite ?repeat_length; auto). assert (S1 : In (nth j nn 0) ns) by (unfold nn; rewrite app_nth1 by auto; apply nth_In; auto).
        apply filter_In in S1. destruct S1 as [_ S1]. unfold is_had in S1. rewrite EE in S1. destruct e; [rewrite xorb_false_r; auto|discriminate].
      - rewrite app_nth2, nth_rep by (rewrite ?repeat_length; lia). assert (S1 : In (nth j nn 0) nh) by (unfold nn; rewrite app_nth2 by lia; apply nth_In; lia).
        apply filter_In in S1. destruct S1 as [_ S1]. unfold is_had in S1. rewrite EE in S1. destruct e; [discriminate|rewrite xorb_true_r; auto]. }
    rewrite TD'. cbn [bind]. exists (v :: W), T', (dset v (seq (rank T' + length contr - d) (d - length contr)) ind1), (rest L contr ++ repeat (Leg v) m). split; [reflexivity|].
    assert (RL := rest_len L contr R).
    assert (RT : rank T' = length (rest L contr) + m). { unfold rank. rewrite (proj1 TF'), !repeat_length, app_length, repeat_length. auto. }
    assert (NR : forall l, In l (rest L contr) -> In l L). { intros l I. apply in_map_iff in I. destruct I as [p [<- I]]. apply in_free in I. apply nth_In; tauto. }
    assert (PV : poss v (rest L contr) = []). { apply poss_none. intros l I Q. subst l. apply NR in I. apply TL in I. auto. }
    assert (PE : forall w, w <> v -> poss w (rest L contr ++ repeat (Leg v) m) = poss w (rest L contr)).
    { intros w N. rewrite poss_app, (poss_none w (repeat (Leg v) m)); [cbn; apply app_nil_r|]. intros l I Q. apply repeat_spec in I. congruence. }
    assert (PVV : poss v (rest L contr ++ repeat (Leg v) m) = seq (length (rest L contr)) m). { rewrite poss_app, PV, poss_repeat. cbn [app]. symmetry. apply seq_plus. }
    constructor; auto.
    + intros w. cbn [In]. rewrite TW, in_app_iff. cbn. intuition.
    + constructor; auto.
    + intros w I. apply in_app_iff in I. destruct I as [I|I]; [right; apply TL; auto|]. apply repeat_spec in I. injection I as ->. left; auto.
    + intros w. rewrite dget_dset, nmem_cons. destruct (Nat.eqb_spec w v) as [->|N]; cbn [orb].
      * rewrite PVV, LC. do 2 f_equal. unfold m in *. lia.
      * rewrite ID, TD. destruct (nmem w W); auto. rewrite PE; auto.
    + intros w Hw. destruct (Nat.eq_dec w v) as [->|N].
      * rewrite PVV, seq_length. assert (F := filter_len _ (fun n => before g n v) (neighbors g v)). fold nn0 in F. rewrite <- (Permutation_length PN) in F.
        rewrite (filter_ext_in (fun n => negb (nmem n (v :: W))) (fun n => negb (before g n v))); [unfold m; lia|].
        intros n Hn. f_equal. rewrite nmem_cons. destruct (Nat.eqb_spec n v) as [->|_]; [apply neighbors_spec in Hn; rewrite (zx_noloop _ ZX) in Hn; congruence|]. cbn [orb].
        destruct (nmem n W) eqn:A, (before g n v) eqn:B; auto; [apply nmem_spec, (BW n Hn) in A|apply (BW n Hn), nmem_spec in B]; congruence.
      * assert (Ww : In w W) by (destruct Hw; congruence). rewrite PE by auto. rewrite rest_poss, map_length by auto. assert (F := filter_len _ (fun p => nmem p contr) (poss w L)). rewrite (TC w Ww) in F.
        assert (F2 := filter_len _ (fun n => Nat.eqb n v) (filter (fun n => negb (nmem n W)) (neighbors g w))).
        assert (X : length (filter (fun n => negb (nmem n (v :: W))) (neighbors g w)) = length (filter (fun n => negb (Nat.eqb n v)) (filter (fun n => negb (nmem n W)) (neighbors g w)))).
        { f_equal. apply filter_cons2. }
        rewrite X. clear X. assert (NDw := neighbors_nd g w WF).
        assert (Y : length (filter (fun p => nmem p contr) (poss w L)) = length (filter (fun n => Nat.eqb n v) (filter (fun n => negb (nmem n W)) (neighbors g w)))); [|lia].
        destruct (in_dec Nat.eq_dec w nn) as [I|I].
        -- destruct (In_nth _ _ 0 I) as [j [Lj Ej]]. rewrite (nodup_len (filter (fun p => nmem p contr) (poss w L)) [nth j contr 0]).
           ++ rewrite (nodup_len (filter (fun n => Nat.eqb n v) _) [v]); auto; [apply NoDup_filter, NoDup_filter; auto|repeat constructor; auto|].
              intros a. rewrite !filter_In, Nat.eqb_eq, negb_true_iff, nmem_false. cbn. apply IN0 in I. rewrite SY in I. split; [intros [_ ->]; auto|intros [<-|[]]; tauto].
           ++ apply NoDup_filter, nodup_poss.
           ++ repeat constructor; auto.
           ++ intros a. rewrite filter_In, nmem_spec, in_poss. cbn. split.
              ** intros [[A B] Ca]. destruct (CP a Ca) as [j' [Lj' [-> [_ Lb]]]]. left. f_equal. rewrite NoDup_nth with (d := 0) in N1. apply N1; auto. rewrite Ej. congruence.
              ** intros [<-|[]]. assert (A := CJ j Lj). apply in_poss in A. rewrite Ej in A. split; auto. apply nth_In. lia.
        -- rewrite !filter_none; auto.
           ++ intros a A. apply filter_In in A. destruct A as [A _]. destruct (Nat.eqb_spec a v) as [->|_]; [|auto]. exfalso. apply I, IN0. split; [apply SY|]; auto.
           ++ intros p A. destruct (nmem p contr) eqn:B; auto. apply nmem_spec in B. destruct (CP p B) as [j [Lj [-> [_ Lb]]]]. apply in_poss in A. exfalso. apply I. destruct A as [_ A]. replace w with (nth j nn 0) by congruence. apply nth_In; auto.
    + apply ord_app, ord_rest; auto. intros p Ip. destruct (CP p Ip) as [j [_ [_ [_ H]]]]. eauto.
Qed.

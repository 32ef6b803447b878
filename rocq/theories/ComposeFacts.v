(** compose: structure and value of the result *)
From Coq Require Import Reals ZArith QArith Qcanon List Bool Arith Lia Permutation FunctionalExtensionality.
From Verif Require Import CNum Base ScalarModel ScalarProofs GraphModel GraphSem SumLemmas GraphProofs GraphOps RulesModel RuleLemmas
  SpiderProofs IsoProofs IdProofs LcompProofs PivotProofs GrowProofs StoreProofs InvProofs BfixProofs TotalProofs GrowTotal
  GateModel CircSpec GateProofs AmpProofs CircGraphModel CircGraphProofs CircGraphFacts VerifyProofs GraphAlgModel GraphAlgProofs GraphAlgFacts ComposeProofs.
Import ListNotations.
Open Scope C_scope.

Lemma combine_seq : forall (l l' : list nat), length l = length l' -> combine l l' = map (fun j => (nth j l 0%nat, nth j l' 0%nat)) (seq 0 (length l)).
Proof.
  induction l as [|a l IH]; intros [|b l'] H; try discriminate; auto. simpl. f_equal. rewrite IH by (simpl in H; lia).
  rewrite <- seq_shift, map_map. auto.
Qed.
Lemma mapM_map : forall A B D (F : B -> res D) (G : A -> B) (K : A -> D) l, (forall a, In a l -> F (G a) = Ok (K a)) -> mapM F (map G l) = Ok (map K l).
Proof.
  intros A B D F G K. induction l as [|a l IH]; intros H; simpl; auto. rewrite H by (simpl; auto). cbn [bind]. rewrite IH; auto. intros; apply H; simpl; auto.
Qed.
Lemma foldM_map_ext : forall A B S (F : S -> B -> res S) (G : A -> B) (K : S -> A -> res S) l s,
  (forall a s, In a l -> F s (G a) = K s a) -> foldM F (map G l) s = foldM K l s.
Proof.
  intros A B S F G K. induction l as [|a l IH]; intros s H; simpl; auto. rewrite H by (simpl; auto). destruct (K s a); simpl; auto. apply IH. intros; apply H; simpl; auto.
Qed.
Lemma nth_inj : forall (l : list nat) j k, NoDup l -> (j < length l)%nat -> (k < length l)%nat -> nth j l 0%nat = nth k l 0%nat -> j = k.
Proof. intros l j k N A B E. rewrite <- (index_nth l j N A), E. apply index_nth; auto. Qed.
Lemma filter_disj : forall (S l : list nat), (forall v, In v l -> ~ In v S) -> filter (fun u => negb (mem u S)) l = l.
Proof. intros S l H. apply filter_true. intros v Hv. apply negb_true_iff, mem_false. auto. Qed.
Lemma hit_dec : forall (P : list nat) (F : nat -> bool), (exists p, In p P /\ F p = true) \/ (forall p, In p P -> F p = false).
Proof.
  intros P F. destruct (existsb F P) eqn:E; [left; apply existsb_exists in E; auto|right]. intros p Hp. destruct (F p) eqn:X; auto.
  exfalso. rewrite <- not_true_iff_false in E. apply E. apply existsb_exists. eauto.
Qed.
Lemma bound_or_zx : forall g v, zx_types g -> In v (vertices g) -> vty g v = BOUNDARY \/ vertex_is_zx (vty g v) = true.
Proof. intros g v Z H. specialize (Z v H). destruct (vty g v); auto; congruence. Qed.
Definition eo (g : graph) (v : nat) : etype := match edge_type g (nb g v) v with Some e => e | None => SIMPLE end.

Section Compose.
  Variables g h : graph.
  Hypothesis Zg : zinv g.
  Hypothesis Zh : zinv h.
  Hypothesis Ng : io_ok g.
  Hypothesis Nh : io_ok h.
  Hypothesis LEN : length (goutputs g) = length (ginputs h).
  Hypothesis NO : forall u v, In u (goutputs g) -> In v (goutputs g) -> edge_type g u v = None.
  Hypothesis NI : forall u v, In u (ginputs h) -> In v (ginputs h) -> edge_type h u v = None.
  Let n := length (goutputs g).
  Let o j := nth j (goutputs g) 0%nat.
  Let i j := nth j (ginputs h) 0%nat.
  Let et j := if etype_eqb (eo g (o j)) (eo h (i j)) then SIMPLE else HADAMARD.
  Let Wg : wfg g := zx_wf _ (zi_zx _ Zg).
  Let Wh : wfg h := zx_wf _ (zi_zx _ Zh).

  Lemma c_j : forall j, In j (seq 0 n) <-> (j < n)%nat. Proof. intros. rewrite in_seq. lia. Qed.
  Lemma c_o : forall j, (j < n)%nat -> In (o j) (goutputs g). Proof. intros. apply nth_In. auto. Qed.
  Lemma c_i : forall j, (j < n)%nat -> In (i j) (ginputs h). Proof. intros. apply nth_In. rewrite <- LEN. auto. Qed.
  Lemma c_No : NoDup (goutputs g). Proof. eapply NoDup_app_r. exact Ng. Qed.
  Lemma c_Ni : NoDup (ginputs h). Proof. eapply NoDup_app_l. exact Nh. Qed.
  Lemma c_oB : forall v, In v (goutputs g) -> In v (vertices g) /\ vty g v = BOUNDARY. Proof. intros. apply (zinv_io _ Zg). auto. Qed.
  Lemma c_iB : forall v, In v (ginputs h) -> In v (vertices h) /\ vty h v = BOUNDARY. Proof. intros. apply (zinv_io _ Zh). auto. Qed.
  (** the neighbour of an output *)
  Lemma c_nbo : forall v, In v (goutputs g) -> neighbors g v = [nb g v] /\ (forall w, edge_type g v w <> None <-> w = nb g v) /\ In (nb g v) (vertices g) /\ ~ In (nb g v) (goutputs g)
    /\ edge_type g (nb g v) v = Some (eo g v).
  Proof.
    intros v Hv. destruct (c_oB v Hv) as [A B]. destruct (bdeg_nb g v Wg (zi_deg _ Zg) A B) as [X Y]. split; auto. split; auto.
    assert (E := proj2 (Y (nb g v)) eq_refl). split; [rewrite wf_sym in E by apply Wg; eapply edge_type_in_l; eauto|].
    split; [intros I; apply E; apply NO; auto|]. unfold eo. rewrite (wf_sym g Wg). destruct (edge_type g v (nb g v)); congruence.
  Qed.
  Lemma c_nbi : forall v, In v (ginputs h) -> neighbors h v = [nb h v] /\ (forall w, edge_type h v w <> None <-> w = nb h v) /\ In (nb h v) (vertices h) /\ ~ In (nb h v) (ginputs h)
    /\ edge_type h (nb h v) v = Some (eo h v).
  Proof.
    intros v Hv. destruct (c_iB v Hv) as [A B]. destruct (bdeg_nb h v Wh (zi_deg _ Zh) A B) as [X Y]. split; auto. split; auto.
    assert (E := proj2 (Y (nb h v)) eq_refl). split; [rewrite wf_sym in E by apply Wh; eapply edge_type_in_l; eauto|].
    split; [intros I; apply E; apply NI; auto|]. unfold eo. rewrite (wf_sym h Wh). destruct (edge_type h v (nb h v)); congruence.
  Qed.
  Lemma c_plugs : mapM (plug g h) (combine (goutputs g) (ginputs h)) = Ok (map (fun j => (nb g (o j), nb h (i j), et j)) (seq 0 n)).
  Proof.
    rewrite combine_seq by auto. apply mapM_map. intros j Hj. apply c_j in Hj. fold (o j) (i j). unfold plug.
    destruct (c_nbo _ (c_o j Hj)) as [A [_ [_ [_ B]]]]. destruct (c_nbi _ (c_i j Hj)) as [A' [_ [_ [_ B']]]].
    rewrite !neighbors_r_ok by (apply c_oB, c_o || apply c_iB, c_i; auto). rewrite A. cbn [bind]. rewrite A'. rewrite B, (wf_sym h Wh), B'. reflexivity.
  Qed.

  (** what the run builds *)
  Record composed (f : nat -> nat) (r : graph) : Prop := mkcomposed {
    cm_core : zcore r; cm_in : ginputs r = ginputs g; cm_out : goutputs r = map f (goutputs h);
    cm_v : vertices r = without (goutputs g) (vertices g) ++ map f (without (ginputs h) (vertices h));
    cm_gt : forall v, In v (vertices g) -> ~ In v (goutputs g) -> vty r v = vty g v;
    cm_ht : forall v, In v (vertices h) -> ~ In v (ginputs h) -> vty r (f v) = vty h v;
    cm_int : forall x, integL (vertices r) r x = to_number (gscalar g) * to_number (gscalar h) * part g (without (goutputs g) (vertices g)) x *
        part h (without (ginputs h) (vertices h)) (fun v => x (f v)) *
        cprod (fun j => wt (Some (tog (xorb (isX g (nb g (o j))) (isX h (nb h (i j)))) (et j))) (x (nb g (o j))) (x (f (nb h (i j))))) (seq 0 n) }.

  Lemma c_run : exists r f, compose_with g h = Ok r /\ composed f r.
  Proof.
    unfold compose_with. rewrite (proj2 (Nat.eqb_eq _ _) LEN). cbn [negb]. rewrite c_plugs. cbn [bind].
    set (g1 := on_scalar (fun s => mult_with_scalar s (gscalar h)) g).
    destruct (remove_each (goutputs g) g1) as [g2 [E2 [R2 D2]]].
    { apply on_scalar_wfg. apply Wg. } { exact (zx_noloop _ (zi_zx _ Zg)). } { apply c_No. } { intros v Hv. apply c_oB; auto. }
    rewrite E2. cbn [bind]. set (off := (max_default 0 (nb_rows g) - min_default 0 (nb_rows h) + 1)%Qc).
    set (L := without (ginputs h) (vertices h)). change (filter (fun v => negb (inb v (ginputs h))) (vertices h)) with L.
    assert (NL : NoDup L) by (apply NoDup_filter; apply Wh).
    destruct (vertices_graft h (fun p => p) (vertices h) (compose_vertex off h)) with (L := L) (g := g2) (tab := @nil (nat * nat)) as [g3 [tab [E3 [_ [_ [HT [_ V3]]]]]]].
    { intros k tab v Wk Hv. apply compose_vertex_ok; auto. } { apply R2. } { auto. } { intros v Hv. apply in_without in Hv. apply Hv. } { intros v _ []. }
    match goal with |- context [foldM ?F ?L ?S] => replace (foldM F L S) with (Ok (g3, tab)) by (symmetry; exact E3) end. cbn [bind].
    destruct (edges_all h Wh) as [NE HE].
    destruct (graft_all g2 h (fun p => p) L g3 tab (filter (fun e : nat * nat => negb (inb (fst e) (ginputs h)) && negb (inb (snd e) (ginputs h))) (edges h)) (rm_wf _ _ _ R2) Wh (zx_noloop _ (zi_zx _ Zh)) V3 HT) as [r0 [E4 G]].
    { apply NoDup_filter. auto. }
    { intros u v. rewrite filter_In, HE. cbn [fst snd]. rewrite andb_true_iff, !negb_true_iff. change inb with mem. rewrite !mem_false. unfold L. rewrite !in_without. tauto. }
    rewrite E4. cbn [bind]. set (f := tf tab) in *.
    destruct (graft_fresh g2 L f r0 (gf_wf _ _ _ _ _ _ G) (gf_v _ _ _ _ _ _ G)) as [IN [FR VR]].
    assert (V2 : vertices g2 = without (goutputs g) (vertices g)) by apply R2.
    assert (I2 : forall v, In v (vertices g2) <-> In v (vertices g) /\ ~ In v (goutputs g)) by (intros v; rewrite V2; apply in_without).
    assert (IL : forall v, In v L <-> In v (vertices h) /\ ~ In v (ginputs h)) by (intros v; apply in_without).
    assert (CR := graft_cross _ _ _ _ _ _ (rm_wf _ _ _ R2) G).
    set (a j := nb g (o j)). set (b j := f (nb h (i j))).
    assert (BM : forall j, In (nb h (i j)) L -> In (b j) (map f L)) by (intros j Hj; unfold b; apply in_map; auto).
    assert (HA : forall j, (j < n)%nat -> In (a j) (vertices g2)).
    { intros j Hj. apply I2. destruct (c_nbo _ (c_o j Hj)) as [_ [_ [X [Y _]]]]. auto. }
    assert (HL : forall j, (j < n)%nat -> In (nb h (i j)) L).
    { intros j Hj. apply IL. destruct (c_nbi _ (c_i j Hj)) as [_ [_ [X [Y _]]]]. auto. }
    assert (T2 : forall v, In v (vertices g2) -> vty r0 v = vty g v).
    { intros v Hv. rewrite (proj1 (gf_ot _ _ _ _ _ _ G v Hv)). apply (rm_ty _ _ _ R2). apply I2. auto. }
    assert (UA : forall p q, (p < n)%nat -> (q < n)%nat -> vty g (a p) = BOUNDARY -> a p = a q -> p = q).
    { intros p q Hp Hq T E. destruct (c_nbo _ (c_o p Hp)) as [_ [X1 [X2 _]]]. destruct (c_nbo _ (c_o q Hq)) as [_ [Y1 _]].
      destruct (bdeg_nb g (a p) Wg (zi_deg _ Zg) X2 T) as [_ B]. apply (nth_inj (goutputs g)); auto; [apply c_No|]. fold (o p) (o q).
      transitivity (nb g (a p)); [|symmetry]; apply B; rewrite (wf_sym g Wg); [apply X1; auto|apply Y1; auto]. }
    assert (UB : forall p q, (p < n)%nat -> (q < n)%nat -> vty h (nb h (i p)) = BOUNDARY -> b p = b q -> p = q).
    { intros p q Hp Hq T E. apply IN in E; auto. destruct (c_nbi _ (c_i p Hp)) as [_ [X1 [X2 _]]]. destruct (c_nbi _ (c_i q Hq)) as [_ [Y1 _]].
      destruct (bdeg_nb h (nb h (i p)) Wh (zi_deg _ Zh) X2 T) as [_ B]. apply (nth_inj (ginputs h)); auto; [apply c_Ni|rewrite <- LEN; auto|rewrite <- LEN; auto|]. fold (i p) (i q).
      transitivity (nb h (nb h (i p))); [|symmetry]; apply B; rewrite (wf_sym h Wh); [apply X1; auto|apply Y1; auto]. }
    assert (AB : forall p q, (p < n)%nat -> (q < n)%nat -> a p <> b q).
    { intros p q Hp Hq E. apply (FR (nb h (i q))); auto. fold (b q). rewrite <- E. auto. }
    destruct (many_ok a b et (seq 0 n) r0) as [r1 [E5 [W5 [F5 [I5 [P5 [Q5 [T5 X5]]]]]]]].
    { apply G. } { apply seq_NoDup. }
    { intros p Hp. apply c_j in Hp. split; [rewrite (gf_v _ _ _ _ _ _ G); apply in_or_app; auto|]. apply (VR (nb h (i p))). auto. }
    { intros p q Hp Hq. apply c_j in Hp. apply c_j in Hq. auto. }
    { intros p q Hp Hq EA EB. apply c_j in Hp. apply c_j in Hq.
      destruct (bound_or_zx g (a p) (zx_zx _ (zi_zx _ Zg))) as [T|T]; [apply I2; auto|left; apply UA; auto|].
      destruct (bound_or_zx h (nb h (i p)) (zx_zx _ (zi_zx _ Zh))) as [T'|T']; [apply IL; auto|left; apply UB; auto|].
      right. unfold zxv. rewrite T2 by auto. split; auto. unfold b. rewrite (proj1 (gf_nt _ _ _ _ _ _ G _ (HL p Hp))). auto. }
    { intros p Hp. apply c_j in Hp. left. apply CR; auto. }
    assert (EP : foldM (add_plug tab) (map (fun j => (nb g (o j), nb h (i j), et j)) (seq 0 n)) r0 = Ok r1).
    { rewrite <- E5. unfold many. apply foldM_map_ext. intros j s Hj. apply c_j in Hj. unfold add_plug, vget. rewrite HT by auto. reflexivity. }
    rewrite EP. cbn [bind].
    assert (OL : forall v, In v (goutputs h) -> In v L).
    { intros v Hv. apply IL. split; [apply (zinv_io _ Zh); auto|]. intros X. apply (NoDup_app_disj _ _ _ Nh v); auto. }
    rewrite mapM_vget by (intros v Hv; apply HT; apply OL; auto). cbn [bind]. fold f.
    exists (set_outputs (map f (goutputs h)) r1), f. split; auto.
    assert (TF := fun u => same_frame_vty r0 r1 u F5). assert (FV : vertices r1 = vertices r0) by apply F5.
    assert (SP : forall v, In v (vertices r0) -> In v (vertices g2) \/ exists w, In w L /\ v = f w).
    { intros v Hv. rewrite (gf_v _ _ _ _ _ _ G) in Hv. apply in_app_or in Hv. destruct Hv as [Hv|Hv]; auto. apply in_map_iff in Hv. destruct Hv as [w [<- Hw]]. right. eauto. }
    assert (E2' : forall u w, In u (vertices g2) -> edge_type r0 u w = if mem w (goutputs g) then None else edge_type g u w).
    { intros u w Hu. rewrite (gf_oe _ _ _ _ _ _ G) by auto. rewrite (rm_edge _ _ _ R2). rewrite (proj2 (mem_false u (goutputs g))) by (apply I2; auto). reflexivity. }
    assert (GI2 : ginputs g2 = ginputs g).
    { rewrite (rm_inputs _ _ _ R2). apply filter_disj. intros v Hv X. apply (NoDup_app_disj _ _ _ Ng v); auto. }
    constructor.
    - constructor; change (vertices (set_outputs (map f (goutputs h)) r1)) with (vertices r1); unfold vertices; fold (vertices r1).
      + apply (frame_only_wfg r1); auto.
      + intros v. change (edge_type r1 v v = None). rewrite T5.
        * destruct (edge_type r0 v v) eqn:E; auto. exfalso. destruct (SP v (edge_in_l _ _ _ _ E)) as [X|[w [X ->]]].
          -- rewrite E2' in E by auto. rewrite (zx_noloop _ (zi_zx _ Zg)) in E. destruct (mem v _); discriminate.
          -- rewrite (gf_ne _ _ _ _ _ _ G), (zx_noloop _ (zi_zx _ Zh)) in E by auto. discriminate.
        * intros p Hp. apply c_j in Hp. apply pair_hit_false; intros Y; injection Y as -> Y; apply (AB p p Hp Hp); auto.
      + intros v Hv. change (vty r1 v <> HBOX). rewrite TF. change (In v (vertices r1)) in Hv. rewrite FV in Hv. destruct (SP v Hv) as [X|[w [X ->]]].
        * rewrite T2 by auto. apply (zx_zx _ (zi_zx _ Zg)). apply I2. auto.
        * rewrite (proj1 (gf_nt _ _ _ _ _ _ G w X)). apply (zx_zx _ (zi_zx _ Zh)). apply IL. auto.
      + intros v Hv. change (in02 (phase r1 v)). apply Q5. change (In v (vertices r1)) in Hv. rewrite FV in Hv. destruct (SP v Hv) as [X|[w [X ->]]].
        * rewrite (proj2 (gf_ot _ _ _ _ _ _ G v X)). rewrite (rm_phase _ _ _ R2) by (apply I2; auto). apply (zx_ph _ (zi_zx _ Zg)). apply I2. auto.
        * rewrite (proj2 (gf_nt _ _ _ _ _ _ G w X)). apply qmod2_range.
      + intros c Hc Tc. change (In c (vertices r1)) in Hc. rewrite FV in Hc. change (vty r1 c = BOUNDARY) in Tc. rewrite TF in Tc.
        change (exists u, forall w, edge_type r1 c w <> None <-> w = u). destruct (SP c Hc) as [X|[v [X ->]]].
        * rewrite T2 in Tc by auto. assert (Xg := proj1 (I2 c) X). destruct (bdeg_nb g c Wg (zi_deg _ Zg) (proj1 Xg) Tc) as [_ B].
          destruct (in_dec Nat.eq_dec (nb g c) (goutputs g)) as [Io|Io].
          -- destruct (In_nth _ _ 0%nat Io) as [j [Hj Ej]]. fold n in Hj. fold (o j) in Ej.
             assert (AJ : a j = c). { unfold a. symmetry. apply (c_nbo _ (c_o j Hj)). rewrite (wf_sym g Wg). apply B. auto. }
             exists (b j). intros w. split.
             ++ intros E. destruct (hit_dec (seq 0 n) (fun p => pair_hit (a p) (b p) c w)) as [[p [Hp Hh]]|Hn].
                ** apply c_j in Hp. apply pair_hit_iff in Hh. destruct Hh as [[H1 ->]|[H1 _]]; [|exfalso; apply (FR (nb h (i p))); auto; fold (b p); rewrite <- H1; auto].
                   f_equal. symmetry. apply UA; auto; [rewrite AJ; auto|congruence].
                ** exfalso. rewrite T5 in E by auto. rewrite E2' in E by auto. destruct (mem w (goutputs g)) eqn:M; [congruence|]. apply mem_false in M. apply M. apply B in E. congruence.
             ++ intros ->. rewrite <- AJ. rewrite X5; [discriminate|apply c_j; auto| |].
                ** intros q Hq EA _. apply c_j in Hq. apply UA; auto. rewrite EA, AJ. auto.
                ** apply CR; auto.
          -- assert (NH : forall w p, In p (seq 0 n) -> pair_hit (a p) (b p) c w = false).
             { intros w p Hp. apply c_j in Hp. destruct (pair_hit (a p) (b p) c w) eqn:PH; auto. exfalso. apply pair_hit_iff in PH. destruct PH as [[H1 _]|[H1 _]].
               - apply Io. replace (nb g c) with (o p); [apply c_o; auto|]. apply B. rewrite (wf_sym g Wg). apply (c_nbo _ (c_o p Hp)). auto.
               - apply (FR (nb h (i p))); auto. fold (b p). rewrite <- H1. auto. }
             exists (nb g c). intros w. rewrite T5 by auto. rewrite E2' by auto. destruct (mem w (goutputs g)) eqn:M.
             ++ split; [congruence|]. intros ->. apply mem_spec in M. contradiction.
             ++ apply B.
        * rewrite (proj1 (gf_nt _ _ _ _ _ _ G v X)) in Tc. assert (Xh := proj1 (IL v) X). destruct (bdeg_nb h v Wh (zi_deg _ Zh) (proj1 Xh) Tc) as [_ B].
          assert (OUT : forall w, edge_type r0 (f v) w <> None -> exists w', In w' L /\ w = f w').
          { intros w E. assert (Hw : In w (vertices r0)) by (rewrite (wf_sym r0) in E by apply G; eapply edge_type_in_l; eauto).
            destruct (SP w Hw) as [Y|Y]; auto. exfalso. apply E. rewrite (wf_sym r0) by apply G. apply CR; auto. apply in_map; auto. }
          destruct (in_dec Nat.eq_dec (nb h v) (ginputs h)) as [Io|Io].
          -- destruct (In_nth _ _ 0%nat Io) as [j [Hj Ej]]. rewrite <- LEN in Hj. fold n in Hj. fold (i j) in Ej.
             assert (AJ : nb h (i j) = v). { symmetry. apply (c_nbi _ (c_i j Hj)). rewrite (wf_sym h Wh). apply B. auto. }
             assert (BJ : b j = f v) by (unfold b; rewrite AJ; auto).
             exists (a j). intros w. split.
             ++ intros E. destruct (hit_dec (seq 0 n) (fun p => pair_hit (a p) (b p) (f v) w)) as [[p [Hp Hh]]|Hn].
                ** apply c_j in Hp. apply pair_hit_iff in Hh. destruct Hh as [[H1 _]|[H1 ->]]; [exfalso; apply (FR v X); rewrite H1; auto|].
                   f_equal. symmetry. apply UB; auto; [rewrite AJ; auto|congruence].
                ** exfalso. rewrite T5 in E by auto. destruct (OUT w E) as [w' [Hw' ->]]. rewrite (gf_ne _ _ _ _ _ _ G) in E by auto. apply B in E. apply IL in Hw'. subst w'. apply Hw'. auto.
             ++ intros ->. rewrite (wf_sym r1) by auto. rewrite <- BJ. rewrite X5; [discriminate|apply c_j; auto| |].
                ** intros q Hq _ EB. apply c_j in Hq. symmetry. apply UB; auto. rewrite AJ. auto.
                ** apply CR; auto.
          -- assert (NH : forall w p, In p (seq 0 n) -> pair_hit (a p) (b p) (f v) w = false).
             { intros w p Hp. apply c_j in Hp. destruct (pair_hit (a p) (b p) (f v) w) eqn:PH; auto. exfalso. apply pair_hit_iff in PH. destruct PH as [[H1 _]|[H1 _]].
               - apply (FR v X). rewrite H1. auto.
               - apply Io. apply IN in H1; auto. replace (nb h v) with (i p); [apply c_i; auto|]. apply B. rewrite (wf_sym h Wh). apply (c_nbi _ (c_i p Hp)). auto. }
             assert (LB : In (nb h v) L). { apply IL. split; auto. assert (E := proj2 (B (nb h v)) eq_refl). rewrite (wf_sym h Wh) in E. eapply edge_type_in_l; eauto. }
             exists (f (nb h v)). intros w. rewrite T5 by auto. split.
             ++ intros E. destruct (OUT w E) as [w' [Hw' ->]]. rewrite (gf_ne _ _ _ _ _ _ G) in E by auto. f_equal. apply B. auto.
             ++ intros ->. rewrite (gf_ne _ _ _ _ _ _ G) by auto. apply B. auto.
      + intros c Hc Tc. change (In c (vertices r1)) in Hc. rewrite FV in Hc. change (vty r1 c = BOUNDARY) in Tc. rewrite TF in Tc. change (phase r1 c = 0%Qc).
        rewrite P5 by (unfold zxv; rewrite Tc; discriminate). destruct (SP c Hc) as [X|[v [X ->]]].
        * rewrite T2 in Tc by auto. rewrite (proj2 (gf_ot _ _ _ _ _ _ G c X)), (rm_phase _ _ _ R2) by (apply I2; auto). apply (zi_ph _ Zg); auto. apply I2. auto.
        * rewrite (proj1 (gf_nt _ _ _ _ _ _ G v X)) in Tc. rewrite (proj2 (gf_nt _ _ _ _ _ _ G v X)). rewrite (zi_ph _ Zh) by (auto; apply IL; auto). apply qmod2_0.
      + intros v Hv. change (dget v (grindex r1) <> None). destruct F5 as [_ [_ [_ [_ [_ [_ FR5]]]]]]. rewrite FR5. apply (gf_r _ _ _ _ _ _ G).
        * intros u Hu. rewrite D2 by (apply I2; auto). apply (zi_rows _ Zg). apply I2. auto.
        * change (In v (vertices r1)) in Hv. rewrite FV in Hv. auto.
    - change (ginputs r1 = ginputs g). rewrite <- GI2, <- (gf_i _ _ _ _ _ _ G). apply F5.
    - reflexivity.
    - change (vertices r1 = without (goutputs g) (vertices g) ++ map f L). rewrite FV, (gf_v _ _ _ _ _ _ G), V2. auto.
    - intros v H1 H2. change (vty r1 v = vty g v). rewrite TF. apply T2. apply I2. auto.
    - intros v H1 H2. change (vty r1 (f v) = vty h v). rewrite TF. apply (gf_nt _ _ _ _ _ _ G). apply IL. auto.
    - intros x. change (integL (vertices r1) r1 x = to_number (gscalar g) * to_number (gscalar h) * part g (without (goutputs g) (vertices g)) x * part h L (fun v => x (f v)) *
        cprod (fun j => wt (Some (tog (xorb (isX g (a j)) (isX h (nb h (i j)))) (et j))) (x (a j)) (x (b j))) (seq 0 n)).
      rewrite FV. rewrite I5.
      + rewrite integL_part, (graft_part _ _ _ _ _ _ (rm_wf _ _ _ R2) G), (gf_s _ _ _ _ _ _ G), (rm_scalar _ _ _ R2). change (gscalar g1) with (mult_with_scalar (gscalar g) (gscalar h)).
        rewrite mult_with_scalar_number. rewrite V2.
        rewrite (part_ext g g2 (without (goutputs g) (vertices g))).
        * rewrite (cprod_ext _ (fun p => nw r0 (et p) (a p) (b p) x) (fun j => wt (Some (tog (xorb (isX g (a j)) (isX h (nb h (i j)))) (et j))) (x (a j)) (x (b j)))); [ring|].
          intros j Hj. apply c_j in Hj. unfold nw, isX. rewrite (T2 (a j)) by auto. unfold b. rewrite (proj1 (gf_nt _ _ _ _ _ _ G _ (HL j Hj))). auto.
        * intros v Hv. apply in_without in Hv. split; [apply (rm_ty _ _ _ R2)|apply (rm_phase _ _ _ R2)]; apply Hv.
        * intros u v Hu Hv. apply in_without in Hu. apply in_without in Hv. rewrite (rm_edge _ _ _ R2).
          rewrite (proj2 (mem_false u _)) by apply Hu. rewrite (proj2 (mem_false v _)) by apply Hv. reflexivity.
      + apply G.
      + intros p Hp. apply c_j in Hp. split; [rewrite (gf_v _ _ _ _ _ _ G); apply in_or_app; auto|apply (VR (nb h (i p))); auto].
  Qed.

  Let a j := nb g (o j).
  Let c j := nb h (i j).
  Let V2 := without (goutputs g) (vertices g).
  Let L := without (ginputs h) (vertices h).
  Let W x z := cprod (fun j => wt (Some (tog (xorb (isX g (a j)) (isX h (c j))) (et j))) (x (a j)) (z (c j))) (seq 0 n).
  Lemma c_a : forall j, (j < n)%nat -> In (a j) V2.
  Proof. intros j Hj. apply in_without. destruct (c_nbo _ (c_o j Hj)) as [_ [_ [X [Y _]]]]. auto. Qed.
  Lemma c_c : forall j, (j < n)%nat -> In (c j) L.
  Proof. intros j Hj. apply in_without. destruct (c_nbi _ (c_i j Hj)) as [_ [_ [X [Y _]]]]. auto. Qed.
  Lemma c_intg : internal g = filter (fun v => negb (isB g v)) V2.
  Proof.
    unfold internal, V2, without. rewrite filter_filter. apply filter_ext_in. intros v Hv. destruct (isB g v) eqn:B; rewrite ?andb_false_r, ?andb_true_r; auto.
    symmetry. apply negb_true_iff, mem_false. intros X. apply c_oB in X. destruct X as [_ X]. unfold isB in B. rewrite X in B. discriminate.
  Qed.
  Lemma c_inth : internal h = filter (fun v => negb (isB h v)) L.
  Proof.
    unfold internal, L, without. rewrite filter_filter. apply filter_ext_in. intros v Hv. destruct (isB h v) eqn:B; rewrite ?andb_false_r, ?andb_true_r; auto.
    symmetry. apply negb_true_iff, mem_false. intros X. apply c_iB in X. destruct X as [_ X]. unfold isB in B. rewrite X in B. discriminate.
  Qed.
  Lemma c_W : forall x x' z z', (forall v, In v V2 -> x v = x' v) -> (forall v, In v L -> z v = z' v) -> W x z = W x' z'.
  Proof. intros x x' z z' Hx Hz. apply cprod_ext. intros j Hj. apply c_j in Hj. rewrite Hx, Hz; auto; [apply c_c|apply c_a]; auto. Qed.
  Definition both (x z : assignment) : C := part g V2 x * part h L z * W x z.
  Lemma both_x : forall x x' z, (forall v, In v V2 -> x v = x' v) -> both x z = both x' z.
  Proof. intros x x' z H. unfold both. rewrite (part_agree g V2 x x') by auto. rewrite (c_W x x' z z) by auto. auto. Qed.
  Lemma both_z : forall x, respects L (both x).
  Proof. intros x z z' H. unfold both. rewrite (part_agree h L z z') by auto. rewrite (c_W x x z z') by auto. auto. Qed.

  Lemma c_fresh : forall f r, composed f r -> inj_on f L /\ (forall v, In v L -> ~ In (f v) V2).
  Proof.
    intros f r K. assert (N := wf_nd r (zc_wf _ (cm_core _ _ K))). rewrite (cm_v _ _ K) in N. fold V2 L in N. split.
    - apply map_nodup_inj. eapply NoDup_app_r. eauto.
    - intros v Hv X. eapply NoDup_app_disj; eauto. apply in_map. auto.
  Qed.
  Lemma c_int : forall f r, composed f r -> internal r = internal g ++ map f (internal h).
  Proof.
    intros f r K. rewrite c_intg, c_inth. unfold internal. rewrite (cm_v _ _ K), filter_app. fold V2 L. f_equal.
    - apply filter_ext_in. intros v Hv. apply in_without in Hv. unfold isB. rewrite (cm_gt _ _ K) by apply Hv. auto.
    - assert (H : forall v, In v L -> isB r (f v) = isB h v) by (intros v Hv; apply in_without in Hv; unfold isB; rewrite (cm_ht _ _ K) by apply Hv; auto).
      clear K. revert H. generalize L. induction L0 as [|v l IH]; intros H; simpl; auto. rewrite H by (simpl; auto). destruct (isB h v); simpl; rewrite IH; auto; intros; apply H; simpl; auto.
  Qed.
  (** the run's side: two independent sums joined by the plugs *)
  Lemma c_left : forall f r B, composed f r ->
    sem r B = to_number (gscalar g) * to_number (gscalar h) *
      sumv (internal g) (fun x => sumv (internal h) (both x) (fun v => B (f v))) B.
  Proof.
    intros f r B K. destruct (c_fresh f r K) as [IN FR]. unfold sem. rewrite (c_int f r K), sumv_app, <- sumv_scal.
    assert (IG : forall v, In v (internal g) -> In v V2) by (intros v; rewrite c_intg, filter_In; tauto).
    assert (IH : incl (internal h) L) by (intros v; rewrite c_inth, filter_In; tauto).
    apply sumv_ext_on. intros x Hx. rewrite <- sumv_scal.
    transitivity (sumv (map f (internal h)) (fun y => to_number (gscalar g) * to_number (gscalar h) * both x (fun v => y (f v))) x).
    - apply sumv_ext_on. intros y Hy. rewrite (cm_int _ _ K). fold V2 L.
      transitivity (to_number (gscalar g) * to_number (gscalar h) * both y (fun v => y (f v))); [unfold both, W, V2, L, a, c; ring|]. f_equal.
      apply both_x. intros v Hv. apply Hy. intros X. apply in_map_iff in X. destruct X as [w [<- Hw]]. apply (FR w); auto.
    - rewrite (sumv_map L (fun z => to_number (gscalar g) * to_number (gscalar h) * both x z)); auto.
      + apply (sumv_agree L).
        * intros z z' H. f_equal. apply both_z. auto.
        * intros v Hv _. apply Hx. intros X. apply (FR v Hv). auto.
      + intros z z' H. f_equal. apply both_z. auto.
  Qed.
  (** the two factors *)
  Lemma c_ewo : forall j p q, (j < n)%nat -> ew g (nb g (o j)) (o j) p q = wt (Some (tog (isX g (a j)) (eo g (o j)))) p q.
  Proof.
    intros j p q Hj. destruct (c_nbo _ (c_o j Hj)) as [_ [_ [_ [_ E]]]]. unfold ew. rewrite E. cbn [option_map]. fold (a j).
    replace (isX g (o j)) with false by (unfold isX; rewrite (proj2 (c_oB _ (c_o j Hj))); auto). rewrite xorb_false_r. auto.
  Qed.
  Lemma c_ewi : forall j p q, (j < n)%nat -> ew h (nb h (i j)) (i j) p q = wt (Some (tog (isX h (c j)) (eo h (i j)))) q p.
  Proof.
    intros j p q Hj. destruct (c_nbi _ (c_i j Hj)) as [_ [_ [_ [_ E]]]]. unfold ew. rewrite E. cbn [option_map]. fold (c j).
    replace (isX h (i j)) with false by (unfold isX; rewrite (proj2 (c_iB _ (c_i j Hj))); auto). rewrite xorb_false_r. destruct (tog _ _), p, q; auto.
  Qed.
  Lemma map_nth_seq : forall (l : list nat), l = map (fun j => nth j l 0%nat) (seq 0 (length l)).
  Proof. induction l as [|u l IH]; simpl; auto. f_equal. rewrite <- seq_shift, map_map. auto. Qed.
  Let Ag x (w : assignment) := cprod (fun j => wt (Some (tog (isX g (a j)) (eo g (o j)))) (x (a j)) (w j)) (seq 0 n).
  Let Ah z (w : assignment) := cprod (fun j => wt (Some (tog (isX h (c j)) (eo h (i j)))) (w j) (z (c j))) (seq 0 n).
  Lemma c_g : forall inp w B, (forall j, (j < length (ginputs g))%nat -> B (nth j (ginputs g) 0%nat) = inp j) ->
    val g inp w = to_number (gscalar g) * sumv (internal g) (fun x => part g V2 x * Ag x w) B.
  Proof.
    intros inp w B HB. unfold val. rewrite sem_part. f_equal.
    transitivity (sumv (internal g) (fun x => part g V2 x * Ag x w) (bits (ginputs g) (goutputs g) inp w)).
    - apply sumv_ext_on. intros x Hx. rewrite (part_cut g (goutputs g)); auto; [|apply (zi_deg _ Zg)|apply c_No|apply c_oB]. f_equal.
      rewrite (map_nth_seq (goutputs g)) at 1. rewrite cprod_map'. apply cprod_ext. intros j Hj. apply c_j in Hj. fold (o j). rewrite c_ewo by auto. fold (a j). f_equal.
      rewrite Hx; [apply bits_out; auto|]. unfold internal. rewrite filter_In. intros [_ X]. unfold isB in X. rewrite (proj2 (c_oB _ (c_o j Hj))) in X. discriminate.
    - apply (sumv_agree V2).
      + intros x x' H. rewrite (part_agree g V2 x x') by auto. f_equal. apply cprod_ext. intros j Hj. apply c_j in Hj. rewrite H by (apply c_a; auto). auto.
      + intros v Hv NI'. apply in_without in Hv. destruct Hv as [Hv No].
        assert (T : vty g v = BOUNDARY). { destruct (isB g v) eqn:X; [apply vtype_eqb_eq; auto|]. exfalso. apply NI'. unfold internal. apply filter_In. rewrite X. auto. }
        destruct (zi_io _ Zg v Hv T) as [I|I]; [|contradiction]. destruct (In_nth _ _ 0%nat I) as [j [J <-]]. rewrite bits_in, HB by auto. auto.
  Qed.
  Lemma c_h : forall w y B, (forall j, (j < length (goutputs h))%nat -> B (nth j (goutputs h) 0%nat) = y j) ->
    val h w y = to_number (gscalar h) * sumv (internal h) (fun z => part h L z * Ah z w) B.
  Proof.
    intros w y B HB. unfold val. rewrite sem_part. f_equal.
    transitivity (sumv (internal h) (fun z => part h L z * Ah z w) (bits (ginputs h) (goutputs h) w y)).
    - apply sumv_ext_on. intros x Hx. rewrite (part_cut h (ginputs h)); auto; [|apply (zi_deg _ Zh)|apply c_Ni|apply c_iB]. f_equal.
      rewrite (map_nth_seq (ginputs h)) at 1. rewrite cprod_map'. rewrite <- LEN. fold n. apply cprod_ext. intros j Hj. apply c_j in Hj. fold (i j). rewrite c_ewi by auto. fold (c j). f_equal.
      rewrite Hx; [apply bits_in; auto; rewrite <- LEN; auto|]. unfold internal. rewrite filter_In. intros [_ X]. unfold isB in X. rewrite (proj2 (c_iB _ (c_i j Hj))) in X. discriminate.
    - apply (sumv_agree L).
      + intros x x' H. rewrite (part_agree h L x x') by auto. f_equal. apply cprod_ext. intros j Hj. apply c_j in Hj. rewrite H by (apply c_c; auto). auto.
      + intros v Hv NI'. apply in_without in Hv. destruct Hv as [Hv No].
        assert (T : vty h v = BOUNDARY). { destruct (isB h v) eqn:X; [apply vtype_eqb_eq; auto|]. exfalso. apply NI'. unfold internal. apply filter_In. rewrite X. auto. }
        destruct (zi_io _ Zh v Hv T) as [I|I]; [contradiction|]. destruct (In_nth _ _ 0%nat I) as [j [J <-]]. rewrite bits_out, HB by auto. auto.
  Qed.
  Lemma c_join : forall x z w0, sumv (seq 0 n) (fun w => Ag x w * Ah z w) w0 = W x z.
  Proof.
    intros x z w0.
    set (F := fun (j : nat) (t : bool) (_ : assignment) => wt (Some (tog (isX g (a j)) (eo g (o j)))) (x (a j)) t * wt (Some (tog (isX h (c j)) (eo h (i j)))) t (z (c j))).
    transitivity (sumv (seq 0 n) (fun w => cprod (fun j => F j (w j) w) (seq 0 n)) w0).
    - apply sumv_ext. intros w. unfold Ag, Ah, F. rewrite <- cprod_mult. auto.
    - rewrite (sumv_factor _ F); auto; [|apply seq_NoDup]. apply cprod_ext. intros j Hj. apply wt_join.
  Qed.
  Lemma c_val : forall f r, composed f r -> io_ok r -> forall inp y w0,
    val r inp y = sumv (seq 0 n) (fun w => val g inp w * val h w y) w0.
  Proof.
    intros f r K N inp y w0. unfold val at 1. set (B := bits (ginputs r) (goutputs r) inp y). rewrite (c_left f r B K).
    assert (HI : forall j, (j < length (ginputs g))%nat -> B (nth j (ginputs g) 0%nat) = inp j) by (intros j Hj; unfold B; rewrite <- (cm_in _ _ K) in *; apply bits_in; auto).
    assert (HO : forall j, (j < length (goutputs h))%nat -> B (f (nth j (goutputs h) 0%nat)) = y j).
    { intros j Hj. unfold B. rewrite nth_map' by auto. rewrite <- (cm_out _ _ K). apply bits_out; auto. rewrite (cm_out _ _ K), map_length. auto. }
    rewrite (sumv_ext (seq 0 n) _ (fun w => to_number (gscalar g) * to_number (gscalar h) *
       sumv (internal g) (fun x => sumv (internal h) (fun z => part g V2 x * part h L z * (Ag x w * Ah z w)) (fun v => B (f v))) B)).
    - rewrite sumv_scal. f_equal.
      rewrite (sumv_swap2 (seq 0 n) (internal g) (fun w x => sumv (internal h) (fun z => part g V2 x * part h L z * (Ag x w * Ah z w)) (fun v => B (f v)))).
      apply sumv_ext. intros x. rewrite (sumv_swap2 (seq 0 n) (internal h) (fun w z => part g V2 x * part h L z * (Ag x w * Ah z w))).
      apply sumv_ext. intros z. rewrite sumv_scal, c_join. unfold both. auto.
    - intros w. rewrite (c_g inp w B HI), (c_h w y (fun v => B (f v)) HO).
      transitivity (to_number (gscalar g) * to_number (gscalar h) * (sumv (internal h) (fun z => part h L z * Ah z w) (fun v => B (f v)) * sumv (internal g) (fun x => part g V2 x * Ag x w) B)); [ring|]. f_equal.
      rewrite <- sumv_scal. apply sumv_ext. intros x. rewrite Cmult_comm, <- sumv_scal. apply sumv_ext. intros z. ring.
  Qed.
  Lemma c_io : forall f r, composed f r -> zinv r /\ io_ok r.
  Proof.
    intros f r K. destruct (c_fresh f r K) as [IN FR].
    assert (OL : forall v, In v (goutputs h) -> In v L).
    { intros v Hv. apply in_without. split; [apply (zinv_io _ Zh); auto|]. intros X. apply (NoDup_app_disj _ _ _ Nh v); auto. }
    assert (IL : forall v, In v (ginputs g) -> In v V2).
    { intros v Hv. apply in_without. split; [apply (zinv_io _ Zg); auto|]. intros X. apply (NoDup_app_disj _ _ _ Ng v); auto. }
    split.
    - apply core_zinv; [apply (cm_core _ _ K)|]. intros v. rewrite (cm_in _ _ K), (cm_out _ _ K), (cm_v _ _ K), in_app_iff. fold V2 L. split.
      + intros [H|H].
        * assert (X := IL v H). split; auto. apply in_without in X. rewrite (cm_gt _ _ K) by apply X. apply (zinv_io _ Zg); auto.
        * apply in_map_iff in H. destruct H as [w [<- H]]. assert (X := OL w H). split; [right; apply in_map; auto|]. apply in_without in X. rewrite (cm_ht _ _ K) by apply X. apply (zinv_io _ Zh); auto.
      + intros [[H|H] T].
        * apply in_without in H. rewrite (cm_gt _ _ K) in T by apply H. destruct (zi_io _ Zg v) as [X|X]; auto; [apply H|]. destruct H; contradiction.
        * apply in_map_iff in H. destruct H as [w [<- H]]. apply in_without in H. rewrite (cm_ht _ _ K) in T by apply H. right. apply in_map. destruct (zi_io _ Zh w) as [X|X]; auto; [apply H|]. destruct H; contradiction.
    - unfold io_ok. rewrite (cm_in _ _ K), (cm_out _ _ K). apply RuleLemmas.nodup_app.
      + eapply NoDup_app_l. exact Ng.
      + apply (map_nodup_on f _ L); auto. eapply NoDup_app_r. exact Nh.
      + intros v Hv X. apply in_map_iff in X. destruct X as [w [<- X]]. apply (FR w); auto.
  Qed.
End Compose.

(** self.compose(other): sequential composition *)
Definition no_wire (g : graph) (S : list nat) : Prop := forall u v, In u S -> In v S -> edge_type g u v = None.
Theorem compose_val : forall g h, zinv g -> io_ok g -> zinv h -> io_ok h -> length (goutputs g) = length (ginputs h) ->
  no_wire g (goutputs g) -> no_wire h (ginputs h) ->
  exists r, compose g h = Ok r /\ zinv r /\ io_ok r /\ ginputs r = ginputs g /\ length (goutputs r) = length (goutputs h) /\
  forall inp y w0, val r inp y = sumv (seq 0 (length (goutputs g))) (fun w => val g inp w * val h w y) w0.
Proof.
  intros g h Zg Ng Zh Nh LEN NO NI. destruct (copy_val h Zh Nh) as [h' [f [E [IS [_ [_ [GI [GO [Z' [N' [_ [_ V]]]]]]]]]]]].
  unfold compose. rewrite E. cbn [bind].
  assert (NI' : no_wire h' (ginputs h')).
  { intros u v Hu Hv. rewrite GI in *. apply in_map_iff in Hu. destruct Hu as [u' [<- Hu]]. apply in_map_iff in Hv. destruct Hv as [v' [<- Hv]].
    rewrite (is_e _ _ _ IS) by (apply (zinv_io _ Zh); auto). auto. }
  assert (LEN' : length (goutputs g) = length (ginputs h')) by (rewrite GI, map_length; auto).
  destruct (c_run g h' Zg Z' Ng N' LEN' NO NI') as [r [f' [R K]]]. destruct (c_io g h' Zg Z' Ng N' f' r K) as [Zr Nr].
  exists r. split; auto. split; auto. split; auto. split; [apply (cm_in _ _ _ _ K)|]. split; [rewrite (cm_out _ _ _ _ K), GO, !map_length; auto|].
  intros inp y w0. rewrite (c_val g h' Zg Z' Ng N' LEN' NO NI' f' r K Nr inp y w0). apply sumv_ext. intros w. rewrite V. auto.
Qed.

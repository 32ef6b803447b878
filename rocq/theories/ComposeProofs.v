(** compose: the plugged diagram denotes the composite of the two maps *)
From Coq Require Import Reals ZArith QArith Qcanon List Bool Arith Lia Permutation FunctionalExtensionality.
From Verif Require Import CNum Base ScalarModel ScalarProofs GraphModel GraphSem SumLemmas GraphProofs GraphOps RulesModel RuleLemmas
  SpiderProofs IsoProofs IdProofs LcompProofs PivotProofs GrowProofs StoreProofs InvProofs BfixProofs TotalProofs GrowTotal
  GateModel CircSpec GateProofs AmpProofs CircGraphModel CircGraphProofs CircGraphFacts VerifyProofs GraphAlgModel GraphAlgProofs GraphAlgFacts.
Import ListNotations.
Open Scope C_scope.

(** ** Removing vertices one at a time *)
Lemma remove_each : forall vs g, wfg g -> noloop g -> NoDup vs -> (forall v, In v vs -> In v (vertices g)) ->
  exists g', foldM (fun g v => remove_vertices [v] g) vs g = Ok g' /\ removed vs g g' /\ (forall u, ~ In u vs -> dget u (grindex g') = dget u (grindex g)).
Proof.
  induction vs as [|v vs IH]; intros g W NL N H; cbn [foldM].
  - exists g. split; auto. split; [apply removed_nil; auto|auto].
  - apply NoDup_cons_iff in N. destruct N as [N1 N2].
    destruct (remove_vertices_ok [v] g W NL) as [g1 E1]; [repeat constructor; auto|intros w [<-|[]]; apply H; simpl; auto|].
    assert (R1 := remove_vertices_spec _ _ _ W E1).
    destruct (IH g1) as [g2 [E2 [R2 D2]]]; auto.
    + apply R1. + eapply removed_noloop; eauto.
    + intros w Hw. rewrite (rm_vs _ _ _ R1). apply filter_In. split; [apply H; simpl; auto|]. unfold mem. simpl. destruct (Nat.eqb_spec w v); auto. subst; contradiction.
    + exists g2. rewrite E1. cbn [bind]. split; auto. split; [apply (removed_trans [v] vs g g1 g2); auto|].
      intros u Hu. rewrite D2 by (intros X; apply Hu; simpl; auto). apply (remove_vertices_rindex [v] g g1 E1). intros [X|[]]; apply Hu; simpl; auto.
Qed.

(** ** Adding a family of wires *)
Lemma add_edge_in02 : forall s t et g g' u, wfg g -> s <> t -> add_edge s t et g = Ok g' -> in02 (phase g u) -> in02 (phase g' u).
Proof.
  intros s t et g g' u W D H R. unfold add_edge in H. destruct (dget s (gadj g)); [|discriminate]. destruct (dget t d).
  - inv_bind H. inv_bind H. destruct (_ && _); [|discriminate]. destruct (if Bool.eqb _ _ then _ else _) as [fu ho].
    destruct (_ && _); [injection H as <-; auto|]. destruct (_ || _).
    + inv_bind H. injection H as <-. cbn [on_scalar with_scalar phase gphase]. destruct (set_edge_type_spec _ _ _ _ _ W E1) as [_ [_ [P _]]].
      change (phase (on_scalar (s_add_power (-1)) (add_to_phase s 1%Qc a1)) u) with (phase (add_to_phase s 1%Qc a1) u). unfold add_to_phase, phase at 1. cbn [gphase with_phase]. rewrite dget_dset. destruct (Nat.eqb u s); [apply qmod2_range|]. rewrite P. exact R.
    + destruct (_ && _); [|discriminate]. inv_bind H. injection H as <-. destruct (remove_edge_spec _ _ _ _ W D E1) as [_ [_ [P _]]].
      unfold phase. cbn [on_scalar with_scalar gphase]. rewrite P. exact R.
  - destruct (set_edge_type_spec _ _ _ _ _ (wfg_nedges _ _ W) H) as [_ [_ [P _]]]. unfold phase. rewrite P. exact R.
Qed.
Section Many.
  Variables (a b : nat -> nat) (e : nat -> etype).
  Definition zxv (g : graph) (u : nat) : Prop := vertex_is_zx (vty g u) = true.
  Definition many (P : list nat) (g : graph) : res graph := foldM (fun g p => add_edge (a p) (b p) (e p) g) P g.
  Lemma many_ok : forall P g, wfg g -> NoDup P -> (forall p, In p P -> In (a p) (vertices g) /\ In (b p) (vertices g)) ->
    (forall p q, In p P -> In q P -> a p <> b q) ->
    (forall p q, In p P -> In q P -> a p = a q -> b p = b q -> p = q \/ (zxv g (a p) /\ zxv g (b p))) ->
    (forall p, In p P -> edge_type g (a p) (b p) = None \/ (zxv g (a p) /\ zxv g (b p))) ->
    exists g', many P g = Ok g' /\ wfg g' /\ same_frame g g' /\
      (forall L x, NoDup L -> (forall p, In p P -> In (a p) L /\ In (b p) L) -> integL L g' x = integL L g x * cprod (fun p => nw g (e p) (a p) (b p) x) P) /\
      (forall u, ~ zxv g u -> phase g' u = phase g u) /\ (forall u, in02 (phase g u) -> in02 (phase g' u)) /\
      (forall u v, (forall p, In p P -> pair_hit (a p) (b p) u v = false) -> edge_type g' u v = edge_type g u v) /\
      (forall p, In p P -> (forall q, In q P -> a q = a p -> b q = b p -> q = p) -> edge_type g (a p) (b p) = None -> edge_type g' (a p) (b p) = Some (e p)).
  Proof.
    unfold many. induction P as [|p P IH]; intros g W N HV HD HU H0; cbn [foldM].
    - exists g. split; auto. split; auto. split; [apply same_frame_refl|]. split; [intros; simpl; ring|]. split; auto. split; auto. split; auto. intros q [].
    - apply NoDup_cons_iff in N. destruct N as [N1 N2]. assert (D : a p <> b p) by (apply HD; simpl; auto).
      destruct (HV p) as [Ia Ib]; [simpl; auto|].
      destruct (add_edge_ok (a p) (b p) (e p) g W D Ia Ib) as [g1 E1].
      { destruct (H0 p) as [X|[X Y]]; simpl; auto. }
      destruct (add_edge_spec _ _ _ _ _ W D E1) as [W1 [F1 [_ [_ [T1 [P1 I1]]]]]].
      assert (ZF : forall u, zxv g1 u <-> zxv g u) by (intros; unfold zxv; rewrite (same_frame_vty g g1) by auto; tauto).
      assert (FV := proj1 F1).
      assert (Hit : forall u v, pair_hit (a p) (b p) u v = false -> edge_type g1 u v = edge_type g u v).
      { intros u v X. apply T1; intros Y; injection Y as -> ->; [rewrite pair_hit_st in X|rewrite pair_hit_sym, pair_hit_st in X]; discriminate. }
      assert (Sep : forall q, In q P -> (a q <> a p \/ b q <> b p) -> pair_hit (a p) (b p) (a q) (b q) = false).
      { intros q Hq X. apply pair_hit_false; intros Y; injection Y as Y1 Y2; [destruct X; contradiction|]. apply (HD q p); simpl; auto. }
      destruct (IH g1) as [g2 [E2 [W2 [F2 [I2 [P2 [Q2 [T2 X2]]]]]]]]; auto.
      + intros q Hq. rewrite FV. apply HV. simpl; auto.
      + intros q q' Hq Hq'. apply HD; simpl; auto.
      + intros q q' Hq Hq' A B. rewrite !ZF. apply HU; simpl; auto.
      + intros q Hq. rewrite !ZF. destruct (Nat.eq_dec (a q) (a p)) as [A|A].
        * destruct (Nat.eq_dec (b q) (b p)) as [B|B].
          -- right. destruct (HU q p) as [X|X]; simpl; auto. subst; contradiction.
          -- rewrite Hit by (apply Sep; auto). apply H0. simpl; auto.
        * rewrite Hit by (apply Sep; auto). apply H0. simpl; auto.
      + exists g2. rewrite E1. cbn [bind]. split; auto. split; auto. split; [eapply same_frame_trans; eauto|].
        split; [|split; [|split; [|split]]].
        * intros L x NL HL. rewrite I2 by (auto; intros; apply HL; simpl; auto). rewrite I1 by (auto; apply HL; simpl; auto). cbn [cprod].
          rewrite (cprod_ext _ (fun p0 => nw g1 (e p0) (a p0) (b p0) x) (fun p0 => nw g (e p0) (a p0) (b p0) x)) by (intros; apply nw_frame; auto). ring.
        * intros u Hu. rewrite P2 by (rewrite ZF; auto). destruct (Nat.eq_dec u (a p)) as [->|X]; [|apply P1; auto].
          destruct (H0 p) as [X|[X _]]; [simpl; auto| |contradiction].
          destruct (add_edge_fresh (a p) (b p) (e p) g W D Ia Ib X) as [g1' [E1' [_ [_ [P1' _]]]]]. rewrite E1' in E1. injection E1 as <-. apply P1'.
        * intros u Hu. apply Q2. destruct (Nat.eq_dec u (a p)) as [->|X]; [|rewrite P1; auto]. apply (add_edge_in02 _ _ _ _ _ _ W D E1 Hu).
        * intros u v Hv. rewrite T2 by (intros; apply Hv; simpl; auto). apply Hit. apply Hv. simpl; auto.
        * intros q [<-|Hq] Huq HN.
          -- rewrite T2.
             ++ destruct (add_edge_fresh (a p) (b p) (e p) g W D Ia Ib HN) as [g1' [E1' [_ [_ [_ [_ T1']]]]]]. rewrite E1' in E1. injection E1 as <-. rewrite T1', pair_hit_st. auto.
             ++ intros q Hq. apply pair_hit_false; intros Y; injection Y as Y1 Y2; [|apply (HD p q); simpl; auto].
                apply N1. rewrite <- (Huq q); simpl; auto.
          -- apply X2; auto; [intros; apply Huq; simpl; auto|]. rewrite Hit; auto. apply Sep; auto.
             destruct (Nat.eq_dec (a q) (a p)) as [A|A]; auto. destruct (Nat.eq_dec (b q) (b p)) as [B|B]; auto. exfalso. apply N1. rewrite (Huq p); simpl; auto.
  Qed.
End Many.

(** ** Cutting boundary vertices off *)
Definition nb (g : graph) (v : nat) : nat := hd 0%nat (neighbors g v).
Lemma bdeg_nb : forall g v, wfg g -> bdeg g -> In v (vertices g) -> vty g v = BOUNDARY ->
  neighbors g v = [nb g v] /\ (forall w, edge_type g v w <> None <-> w = nb g v).
Proof.
  intros g v W D H T. destruct (D v H T) as [u Hu]. assert (N := neighbors_nd g v W). unfold nb.
  destruct (neighbors g v) as [|x l] eqn:E.
  - exfalso. assert (X : In u (neighbors g v)) by (apply neighbors_spec, Hu; auto). rewrite E in X. destruct X.
  - assert (A : forall w, In w (x :: l) -> w = u) by (intros w Hw; rewrite <- E in Hw; apply neighbors_spec, Hu in Hw; auto).
    assert (x = u) by (apply A; simpl; auto). subst x. destruct l as [|y l]; [cbn [hd]; auto|].
    exfalso. apply NoDup_cons_iff in N. apply N. rewrite <- (A y); simpl; auto.
Qed.
Lemma cprod_swap : forall A B (F : A -> B -> C) l1 l2, cprod (fun a => cprod (F a) l2) l1 = cprod (fun b => cprod (fun a => F a b) l1) l2.
Proof.
  intros A B F. induction l1 as [|a l1 IH]; intros l2; simpl; [symmetry; apply cprod_1; auto|]. rewrite IH, <- cprod_mult. auto.
Qed.
Lemma cprod_single : forall (F : nat -> C) l s, NoDup l -> In s l -> (forall u, In u l -> u <> s -> F u = C1) -> cprod F l = F s.
Proof.
  intros F. induction l as [|a l IH]; intros s N H E; [destruct H|]. apply NoDup_cons_iff in N. destruct N as [N1 N2]. simpl. destruct H as [->|H].
  - rewrite cprod_1; [ring|]. intros u Hu. apply E; simpl; auto. intros ->; contradiction.
  - rewrite (IH s) by (auto; intros; apply E; simpl; auto). rewrite (E a); [ring|simpl; auto|intros ->; contradiction].
Qed.
Definition without (S V : list nat) : list nat := filter (fun v => negb (mem v S)) V.
Lemma in_without : forall S V v, In v (without S V) <-> In v V /\ ~ In v S.
Proof. intros. unfold without. rewrite filter_In, negb_true_iff, <- not_true_iff_false. rewrite mem_spec. tauto. Qed.
Lemma without_perm : forall S V, NoDup V -> NoDup S -> incl S V -> Permutation V (without S V ++ S).
Proof.
  intros S V NV NS I. apply nodup_same_perm; auto.
  - apply RuleLemmas.nodup_app; auto; [apply NoDup_filter; auto|]. intros a H. apply in_without in H. apply H.
  - intros v. rewrite in_app_iff, in_without. destruct (in_dec Nat.eq_dec v S) as [Hi|Hi]; split; intros H; auto. destruct H as [[]|H]; auto.
Qed.
Lemma part_perm : forall g L L' x, wfg g -> Permutation L L' -> part g L x = part g L' x.
Proof.
  intros g L L' x W H. unfold part. f_equal; [apply cprod_perm; auto|apply pprod_perm; auto]. intros u v. apply ew_sym. auto.
Qed.
Lemma part_cut : forall g S x, wfg g -> bdeg g -> NoDup S -> (forall v, In v S -> In v (vertices g) /\ vty g v = BOUNDARY) ->
  (forall u v, In u S -> In v S -> edge_type g u v = None) ->
  part g (vertices g) x = part g (without S (vertices g)) x * cprod (fun o => ew g (nb g o) o (x (nb g o)) (x o)) S.
Proof.
  intros g S x W D N HS HN. assert (I : incl S (vertices g)) by (intros v Hv; apply HS; auto).
  rewrite (part_perm g _ _ x W (without_perm S (vertices g) (wf_nd g W) N I)). unfold part. rewrite cprod_app, pprod_app.
  rewrite (cprod_1 _ (fun v => pw g v (x v)) S) by (intros v Hv; unfold pw, isB; rewrite (proj2 (HS v Hv)); auto).
  rewrite (pprod_1 _ S) by (intros u v Hu Hv; unfold ew; rewrite HN; auto).
  rewrite cprod_swap. rewrite (cprod_ext _ (fun b => cprod (fun a => ew g a b (x a) (x b)) (without S (vertices g))) (fun o => ew g (nb g o) o (x (nb g o)) (x o)) S); [ring|].
  intros o Ho. destruct (HS o Ho) as [Io To]. destruct (bdeg_nb g o W D Io To) as [_ HB].
  apply (cprod_single (fun a => ew g a o (x a) (x o))).
  - apply NoDup_filter. apply W.
  - apply in_without. assert (E := proj2 (HB (nb g o)) eq_refl). split; [rewrite wf_sym in E by auto; eapply edge_type_in_l; eauto|].
    intros X. rewrite HN in E by auto. congruence.
  - intros u Hu Hne. unfold ew. rewrite wf_sym by auto. destruct (edge_type g o u) eqn:E; auto. exfalso. apply Hne. apply HB. congruence.
Qed.
(** joining two wires *)
Lemma wt_join : forall e1 e2 X1 X2 a c, 
  wt (Some (tog X1 e1)) a false * wt (Some (tog X2 e2)) false c + wt (Some (tog X1 e1)) a true * wt (Some (tog X2 e2)) true c
  = wt (Some (tog (xorb X1 X2) (if etype_eqb e1 e2 then SIMPLE else HADAMARD))) a c.
Proof.
  assert (Q : sq2p (-1) * sq2p (-1) + sq2p (-1) * sq2p (-1) = C1).
  { replace (sq2p (-1) * sq2p (-1)) with (sq2p (-2)) by (rewrite <- sq2p_add; auto).
    transitivity ((C1 + C1) * sq2p (-2)); [ring|]. rewrite <- sq2p_2, <- sq2p_add. apply sq2p_0. }
  intros [] [] [] [] [] []; simpl; unfold dlt, sgn; simpl; try ring; try (transitivity (sq2p (-1) * sq2p (-1) + sq2p (-1) * sq2p (-1)); [ring|exact Q]).
Qed.
Lemma sumv_swap2 : forall l l' (F : assignment -> assignment -> C) w b,
  sumv l (fun w => sumv l' (fun x => F w x) b) w = sumv l' (fun x => sumv l (fun w => F w x) w) b.
Proof.
  intros l l' F w. induction l' as [|a l' IH]; intros b; simpl; auto. rewrite sumv_plus, !IH. auto.
Qed.

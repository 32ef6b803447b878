(** Soundness of remove_isolated_vertices. *)
From Coq Require Import Reals ZArith QArith Qcanon List Bool Arith Lia Permutation Ring.
From Verif Require Import CNum Base ScalarModel ScalarProofs GraphModel GraphSem SumLemmas GraphProofs GraphOps RulesModel RuleLemmas.
Import ListNotations.
Open Scope nat_scope.
Open Scope C_scope.

Lemma sem_regroup_k : forall k g g' A A' core, wfg g -> wfg g' ->
  Permutation (vertices g) (A ++ core) -> Permutation (vertices g') (A' ++ core) ->
  (forall v, In v A -> isB g v = false) -> (forall v, In v A' -> isB g' v = false) ->
  (forall v, In v core -> isB g' v = isB g v) ->
  (forall x, sumv A' (integL (A' ++ core) g') x = k * sumv A (integL (A ++ core) g) x) ->
  forall b, sem g' b = k * sem g b.
Proof.
  intros k g g' A A' core W W' P P' B B' BC H b.
  rewrite (sem_split g A core), (sem_split g' A' core) by auto.
  rewrite (sumv_ext _ _ _ _ H).
  rewrite (sumv_scal (filter (fun v : nat => negb (isB g' v)) core) k (fun y => sumv A (integL (A ++ core) g) y)).
  f_equal. f_equal. apply filter_ext_in. intros. rewrite BC; auto.
Qed.

(** The code's treatment of a Hadamard-connected pair is right up to a factor in K. *)
Definition pairK (K : C -> Prop) (p q : Qc) : Prop :=
  exists k, K k /\ forall s, to_number (add_spider_pair p q s) = k * spider_pair_value p q * to_number s.
Definition isoK (K : C -> Prop) (g : graph) : Prop :=
  forall v w, In v (vertices g) -> neighbors g v = [w] -> neighbors g w = [v] ->
  isB g v = false -> isB g w = false -> pairK K (phase g v) (phase g w).

Definition comp (g : graph) (c : list nat) : Prop :=
  (exists v, c = [v] /\ neighbors g v = []) \/
  (exists v w, c = [v;w] /\ v <> w /\ neighbors g v = [w] /\ neighbors g w = [v]).
Definition fac (g : graph) (c : list nat) : C :=
  match c with
  | [v] => C1 + cexp (phase g v)
  | [v;w] => match option_map (tog (xorb (isX g v) (isX g w))) (edge_type g v w) with
             | Some SIMPLE => C1 + cexp (phase g v + phase g w)%Qc
             | _ => spider_pair_value (phase g v) (phase g w) end
  | _ => C1
  end.

Lemma comp_closed : forall g c u w, comp g c -> In u c -> edge_type g u w <> None -> In w c.
Proof.
  intros g c u w [[v [-> N]]|[v [v' [-> [Ne [N N']]]]]] Hu E; apply neighbors_spec in E.
  - destruct Hu as [<-|[]]. rewrite N in E. contradiction.
  - destruct Hu as [<-|[<-|[]]]; [rewrite N in E|rewrite N' in E]; simpl in *; tauto.
Qed.

Lemma comp_local : forall g c rest x, comp g c -> (forall v, In v c -> isB g v = false) ->
  (forall v, In v c -> ~ In v rest) -> sumv c (loc g c rest) x = fac g c.
Proof.
  intros g c rest x CP HB HR.
  assert (L : forall y, loc g c rest y = cprod (fun v => pw g v (y v)) c * pprod (fun u v => ew g u v (y u) (y v)) c).
  { intros y. unfold loc. rewrite (cprod_1 _ (fun u => cprod _ rest) c); [ring|].
    intros u Hu. apply cprod_1. intros v Hv. apply ew_none.
    destruct (edge_type g u v) eqn:E; auto. exfalso. apply (HR v); auto. apply (comp_closed g c u v); auto. congruence. }
  rewrite (sumv_ext _ _ _ _ L). clear L. destruct CP as [[v [-> N]]|[v [w [-> [Ne [N N']]]]]].
  - simpl. rewrite !upd_same. unfold pw. rewrite (HB v) by (simpl; auto). simpl. ring.
  - assert (B1 := HB v (or_introl eq_refl)). assert (B2 := HB w (or_intror (or_introl eq_refl))).
    assert (Ew : w <> v) by auto.
    simpl. rewrite ?upd_same, ?(upd_other _ w _ v Ne), ?upd_same.
    unfold pw, ew. rewrite B1, B2.
    assert (E : exists e, edge_type g v w = Some e).
    { apply neighbors_some. rewrite N. simpl; auto. }
    destruct E as [e E]. rewrite E. simpl option_map.
    destruct (tog (xorb (isX g v) (isX g w)) e); unfold wt, dlt, sgn, spider_pair_value, ephase; simpl;
      rewrite ?cexp_add; ring.
Qed.

Lemma comps_apart : forall g grp, wfg g -> NoDup (flat_map (fun c => c) grp) -> (forall c, In c grp -> comp g c) ->
  ForallOrdPairs (apart g (fun c : list nat => c)) grp.
Proof.
  intros g grp W. induction grp as [|c grp IH]; simpl; intros N H; constructor.
  - rewrite Forall_forall. intros c' Hc' a b Ha Hb.
    destruct (edge_type g a b) eqn:E; auto. exfalso.
    apply nodup_app_inv in N. destruct N as [_ [_ D]]. apply (D b).
    + apply (comp_closed g c a b); auto. congruence.
    + apply in_flat_map. exists c'. auto.
  - apply nodup_app_inv in N. apply IH; [tauto|]. intros; apply H; auto.
Qed.

Definition iso_inv (K : C -> Prop) (g : graph) (vs : list nat) (rem : list nat) (g1 : graph) : Prop :=
  exists grp s1 k, rem = flat_map (fun c => c) grp /\ g1 = with_scalar s1 g /\ NoDup rem /\
   (forall c, In c grp -> comp g c) /\
   (forall v, In v rem -> In v (vertices g) /\ isB g v = false) /\
   (forall v, In v rem -> neighbors g v = [] -> ~ In v vs) /\
   K k /\ to_number s1 = k * cprod (fac g) grp * to_number (gscalar g).

Lemma iso_closed : forall g grp u w, (forall c, In c grp -> comp g c) ->
  In u (flat_map (fun c => c) grp) -> edge_type g u w <> None -> In w (flat_map (fun c => c) grp).
Proof.
  intros g grp u w H Hu E. apply in_flat_map in Hu. destruct Hu as [c [H1 H2]].
  apply in_flat_map. exists c. split; auto. apply (comp_closed g c u w); auto.
Qed.

Lemma isolated_fold : forall K g, zxok g -> kmon K -> isoK K g ->
  forall vs rem g1 rem' g', NoDup vs -> iso_inv K g vs rem g1 ->
  foldM isolated_step vs (rem, g1) = Ok (rem', g') -> iso_inv K g [] rem' g'.
Proof.
  intros K g ZX KM IS. induction vs as [|v vs IH]; intros rem g1 rem' g' N INV H.
  { simpl in H. injection H as <- <-. auto. }
  inversion N; subst. simpl in H. inv_bind H. destruct a as [rem2 g2].
  apply (IH rem2 g2 rem' g'); auto. clear IH H rem' g'. rename E into H.
  destruct INV as [grp [s1 [k [R1 [G1 [ND [CP [HV [NV [HK HS]]]]]]]]]].
  assert (W := zx_wf g ZX).
  assert (EN : forall u, neighbors g1 u = neighbors g u) by (subst g1; reflexivity).
  assert (EP : forall u, phase g1 u = phase g u) by (subst g1; reflexivity).
  assert (ET : forall u, vty g1 u = vty g u) by (subst g1; reflexivity).
  assert (EE : forall u w, edge_type g1 u w = edge_type g u w) by (subst g1; reflexivity).
  assert (SAME : iso_inv K g vs rem g1).
  { exists grp, s1, k. do 5 (split; [auto; fail|]). split; [|auto]. intros u Hu Hn Hi. apply (NV u Hu Hn). simpl; auto. }
  unfold isolated_step in H. inv_bind H. apply neighbors_r_inv in E. destruct E as [Iv Ea].
  assert (Iv' : In v (vertices g)) by (subst g1; exact Iv).
  rewrite EN in Ea. subst a.
  destruct (neighbors g v) as [|w [|w' l]] eqn:Nv.
  - (* isolated vertex *)
    inv_bind H. apply vtype_r_inv in E. destruct E as [E _]. rewrite ET in E.
    assert (NR : ~ In v rem) by (intros X; apply (NV v X Nv); simpl; auto).
    assert (FIN : isB g v = false -> iso_inv K g vs (rem ++ [v]) (on_scalar (s_add_node (phase g1 v)) g1)).
    { intros HB. exists (grp ++ [[v]]), (s_add_node (phase g v) s1), k.
      split; [rewrite flat_map_app; simpl; rewrite R1; reflexivity|].
      split; [subst g1; reflexivity|]. split; [apply NoDup_snoc; auto|].
      split; [intros c Hc; apply in_app_iff in Hc; destruct Hc as [Hc|[<-|[]]]; auto; left; exists v; auto|].
      split; [intros u Hu; apply in_app_iff in Hu; destruct Hu as [Hu|[<-|[]]]; auto|].
      split.
      { intros u Hu Hn. apply in_app_iff in Hu. destruct Hu as [Hu|[<-|[]]]; auto. intros X. apply (NV u Hu Hn). simpl; auto. }
      split; auto. rewrite add_node_number, HS, cprod_app. simpl. ring. }
    destruct a; try discriminate.
    + injection H as <- <-. apply FIN. unfold isB. rewrite E. reflexivity.
    + injection H as <- <-. apply FIN. unfold isB. rewrite E. reflexivity.
    + exfalso. apply (zx_zx g ZX v Iv'). auto.
  - (* one neighbour *)
    change (existsb (Nat.eqb v) rem) with (mem v rem) in H.
    destruct (mem v rem) eqn:M; [injection H as <- <-; auto|]. apply mem_false in M.
    inv_bind H. apply vtype_r_inv in E. destruct E as [E _]. rewrite ET in E. subst a.
    destruct (vtype_eqb (vty g v) BOUNDARY) eqn:Bv; [injection H as <- <-; auto|].
    inv_bind H. apply neighbors_r_inv in E. destruct E as [Iw Ea]. rewrite EN in Ea. subst a.
    destruct (Nat.ltb_spec 1 (length (neighbors g w))) as [|Lw]; [injection H as <- <-; auto|].
    inv_bind H. apply vtype_r_inv in E. destruct E as [E _]. rewrite ET in E. subst a.
    destruct (vtype_eqb (vty g w) BOUNDARY) eqn:Bw; [injection H as <- <-; auto|].
    inv_bind H. unfold of_opt in E. destruct (edge_type g1 v w) as [et|] eqn:Et; [|discriminate]. injection E as <-.
    rewrite EE in Et. injection H as <- <-.
    assert (Nwv : neighbors g w = [v]).
    { assert (Iv2 : In v (neighbors g w)) by (apply neighbors_spec; rewrite (wf_sym g W); congruence).
      destruct (neighbors g w) as [|z [|z' l]]; simpl in *; [contradiction| |lia].
      destruct Iv2 as [->|[]]. reflexivity. }
    assert (Nvw : v <> w).
    { intros ->. rewrite (zx_noloop g ZX) in Et. discriminate. }
    assert (Mw : ~ In w rem).
    { intros X. apply M. rewrite R1 in X |- *. apply (iso_closed g grp w v CP X). rewrite (wf_sym g W). congruence. }
    assert (Iw' : In w (vertices g)) by (subst g1; exact Iw).
    assert (HBv : isB g v = false) by exact Bv. assert (HBw : isB g w = false) by exact Bw.
    assert (Tv := zx_cases g v (zx_zx g ZX) Iv' HBv). assert (Tw := zx_cases g w (zx_zx g ZX) Iw' HBw).
    assert (FIN : forall f k', K k' -> (forall s, to_number (f s) = k' * fac g [v;w] * to_number s) ->
       iso_inv K g vs (rem ++ [v;w]) (on_scalar f g1)).
    { intros f k' HK' Hf. exists (grp ++ [[v;w]]), (f s1), (k' * k).
      split; [rewrite flat_map_app; simpl; rewrite R1; reflexivity|].
      split; [subst g1; reflexivity|].
      split. { replace (rem ++ [v;w]) with ((rem ++ [v]) ++ [w]) by (rewrite <- app_assoc; reflexivity).
        apply NoDup_snoc; [apply NoDup_snoc; auto|]. rewrite in_app_iff. simpl. intros [X|[X|[]]]; auto. }
      split; [intros c Hc; apply in_app_iff in Hc; destruct Hc as [Hc|[<-|[]]]; auto; right; exists v, w; auto|].
      split; [intros u Hu; apply in_app_iff in Hu; destruct Hu as [Hu|[<-|[<-|[]]]]; auto|].
      split.
      { intros u Hu Hn. apply in_app_iff in Hu. destruct Hu as [Hu|[<-|[<-|[]]]]; try congruence.
        intros X. apply (NV u Hu Hn). simpl; auto. }
      split; [apply KM; auto|]. rewrite Hf, HS, cprod_app. cbn [cprod]. ring. }
    destruct (IS v w Iv' Nv Nwv HBv HBw) as [k2 [HK2 HP2]].
    assert (NODE : forall p s, to_number (s_add_node p s) = C1 * (C1 + cexp p) * to_number s)
      by (intros; rewrite add_node_number; ring).
    rewrite !EP.
    destruct Tv as [Tv|Tv], Tw as [Tw|Tw], et;
      (simpl; rewrite ?Tv, ?Tw; simpl;
       first [ apply (FIN _ k2 HK2); intros s; unfold fac, isX; rewrite Tv, Tw, Et; simpl; apply HP2
             | apply (FIN _ C1 (proj1 KM)); intros s; unfold fac, isX; rewrite Tv, Tw, Et; simpl; apply NODE ]).
  - injection H as <- <-. auto.
Qed.

Lemma with_scalar_frame : forall s g, same_frame g (with_scalar s g).
Proof. intros. repeat split. Qed.

Lemma remove_isolated_sound : forall K g g', zxok g -> kmon K -> isoK K g ->
  remove_isolated_vertices g = Ok g' ->
  step_k K g g' /\ exists rem s1, removed rem (with_scalar s1 g) g' /\ forall v, In v rem -> isB g v = false.
Proof.
  intros K g g' ZX KM IS H. unfold remove_isolated_vertices in H. inv_bind H. destruct a as [rem g1].
  assert (W := zx_wf g ZX).
  assert (INV : iso_inv K g [] rem g1).
  { apply (isolated_fold K g ZX KM IS (vertices g) [] g); auto.
    - apply wf_nd; auto.
    - exists [], (gscalar g), C1. repeat split; try (constructor; fail); try (simpl; tauto).
      + destruct g; reflexivity.
      + apply KM.
      + simpl. ring. }
  destruct INV as [grp [s1 [k [R1 [G1 [ND [CP [HV [_ [HK HS]]]]]]]]]].
  assert (W1 : wfg g1) by (subst g1; destruct W; constructor; auto).
  assert (R := remove_vertices_spec rem g1 g' W1 H).
  assert (ZX1 : zxok g1) by (subst g1; destruct ZX; constructor; auto).
  destruct (removed_zxok rem g1 g' ZX1 R) as [ZX' [I' O']].
  { intros v Hv. subst g1. apply (HV v Hv). }
  split.
  2:{ exists rem, s1. split; [subst g1; auto|]. intros; apply HV; auto. }
  split; [auto|]. split; [subst g1; auto|]. split; [subst g1; auto|]. exists k. split; auto.
  assert (V' : vertices g' = keep rem g).
  { rewrite (rm_vs _ _ _ R). subst g1. reflexivity. }
  apply (sem_regroup_k k g g' rem [] (keep rem g)); auto.
  - apply (rm_wf _ _ _ R).
  - apply vertices_split; auto. intros; apply HV; auto.
  - rewrite V'. apply Permutation_refl.
  - intros; apply HV; auto.
  - simpl; tauto.
  - intros v Hv. unfold isB. rewrite (rm_ty _ _ _ R); [|apply in_keep in Hv; tauto]. subst g1. reflexivity.
  - intros x. simpl. rewrite (integL_removed rem g1 g' (keep rem g) x R).
    2:{ intros u Hu. apply in_keep in Hu. tauto. }
    assert (NA : NoDup (rem ++ keep rem g)).
    { apply nodup_app; auto using keep_nd. intros a Ha Hk. apply in_keep in Hk. tauto. }
    assert (IK : forall v, In v (keep rem g) -> ~ In v rem) by (intros v Hv; apply in_keep in Hv; tauto).
    remember (keep rem g) as rest eqn:ER. clear ER V'.
    rewrite R1 in NA |- *.
    rewrite (batch_sum _ (fun c : list nat => c) g grp rest x); auto.
    + rewrite (cprod_ext _ _ (fac g)).
      * subst g1. unfold integL. simpl gscalar. rewrite HS.
        change (pw (with_scalar s1 g)) with (pw g). change (ew (with_scalar s1 g)) with (ew g). ring.
      * intros c Hc. apply comp_local; auto.
        -- intros v Hv. apply HV. rewrite R1. apply in_flat_map. exists c; auto.
        -- intros v Hv Hk. apply (IK v Hk). rewrite R1. apply in_flat_map. exists c; auto.
    + apply comps_apart; auto. rewrite <- R1; auto.
Qed.

(** ** Wrapping up a rule application *)
Definition good (K : C -> Prop) (P : Qc -> Prop) : Prop :=
  kmon K /\ pcl P /\ forall p q, in02 p -> in02 q -> P p -> P q -> pairK K p q.

Lemma iso_good : forall K P g, good K P -> zxok g -> allph P g -> isoK K g.
Proof.
  intros K P g [KM [PC G]] ZX AP v w Iv N1 N2 B1 B2.
  assert (In w (vertices g)).
  { apply (neighbors_in g v); [apply zx_wf; auto|]. rewrite N1. simpl; auto. }
  apply G; auto; apply (zx_ph g ZX); auto.
Qed.

Lemma good_quarter : good (eq C1) quarter.
Proof.
  split; [split; [reflexivity|intros a b <- <-; ring]|]. split; [exact pcl_quarter|].
  intros p q I1 I2 Q1 Q2. exists C1. split; [reflexivity|]. intros s.
  rewrite add_spider_pair_number; auto; [ring|]. intros [_ X]. contradiction.
Qed.

Lemma remove_isolated_good : forall K P g g', good K P -> zxok g -> allph P g ->
  remove_isolated_vertices g = Ok g' -> step_k K g g' /\ allph P g'.
Proof.
  intros K P g g' G ZX AP H.
  destruct (remove_isolated_sound K g g' ZX (proj1 G) (iso_good K P g G ZX AP) H) as [S [rem [s1 [R _]]]].
  split; auto. eapply allph_removed; eauto.
Qed.

Lemma apply_rw_sound : forall K P g o g', good K P ->
  (forall g1 g2 g3, add_edge_table (rw_etab o) (rw_graph o) = Ok g1 -> remove_edges (rw_edges o) g1 = Ok g2 ->
     remove_vertices (rw_verts o) g2 = Ok g3 -> step_ok g g3 /\ allph P g3) ->
  apply_rw o = Ok g' -> step_k K g g' /\ allph P g'.
Proof.
  intros K P g o g' G H E. unfold apply_rw in E. inv_bind E. inv_bind E. inv_bind E.
  destruct (H a a0 a1 E0 E1 E2) as [S A].
  assert (KM := proj1 G).
  destruct (rw_check o).
  - destruct (remove_isolated_good K P a1 g' G (proj1 S) A E) as [S2 A2].
    split; auto. eapply step_k_trans; eauto. apply step_ok_k; auto.
  - injection E as <-. split; auto. apply step_ok_k; auto.
Qed.

(** reduce_scalar: what it returns, and the one exception it can raise. *)
From Coq Require Import Reals ZArith QArith Qcanon List Bool Arith Lia Permutation.
From Verif Require Import LinModel LinProofs CNum Base ScalarModel ScalarProofs GraphModel GraphSem SumLemmas GraphProofs GraphOps StoreProofs
  RulesModel RuleLemmas SpiderProofs IsoProofs IdProofs LcompProofs PivotProofs GrowProofs PivotMatch GadgetProofs
  SimpModel ColorProofs SimpProofs PairProofs RuleShape TermProofs InvProofs RoundProofs BfixProofs TotalProofs GrowTotal FullTotal ZXFacts SuppProofs SuppFacts TCount TCountRules TCountFacts PgPsep Decide RunEx RedFacts SimuModel.
Import ListNotations.
Open Scope nat_scope.

(** ** Removing a vertex twice is a KeyError *)
Lemma remove_vertices_cases : forall vs g, wfg g -> noloop g -> (exists g', remove_vertices vs g = Ok g' /\ NoDup vs) \/ remove_vertices vs g = Err KeyError.
Proof.
  intros vs g W NL. unfold remove_vertices.
  assert (X : (exists g', foldM (fun g v => remove_one_vertex v g) vs g = Ok g' /\ NoDup vs) \/ foldM (fun g v => remove_one_vertex v g) vs g = Err KeyError).
  { revert g W NL. induction vs as [|v vs IH]; intros g W NL; [left; exists g; split; auto; constructor|]. cbn [foldM].
    destruct (in_dec Nat.eq_dec v (vertices g)) as [Iv|Iv].
    - destruct (remove_one_vertex_ok v g W NL Iv) as [g0 E]. rewrite E. cbn [bind]. assert (R := remove_one_vertex_spec _ _ _ W E).
      destruct (IH g0 (rm_wf _ _ _ R) (removed_noloop _ _ _ R NL)) as [[g' [E' N]]|E']; [left; exists g'; split; auto|right; auto].
      constructor; auto. intros Hv. assert (R' := remove_fold_spec _ _ _ (rm_wf _ _ _ R) E'). apply (rm_in _ _ _ R') in Hv. rewrite (rm_vs _ _ _ R), filter_In, negb_true_iff, mem_false in Hv. apply Hv. simpl; auto.
    - right. unfold remove_one_vertex, neighbors_r. destruct (dget v (gadj g)) eqn:E; [|reflexivity]. exfalso. apply Iv. apply dget_some_key in E. exact E. }
  destruct X as [[g' [E N]]|E]; rewrite E; cbn [bind]; [left; eexists; split; [reflexivity|auto]|right; reflexivity].
Qed.

(** ** Supplementarity, isolated spiders allowed *)
Lemma supp_fold_weak : forall ms g h rem, wfg g -> wfg h -> gadj h = gadj g -> (forall m, In m ms -> sm_ok g m) ->
  exists h', fold_left supp_one ms (h, rem) = (h', rem ++ flat_map smr ms) /\ wfg h' /\ gadj h' = gadj g.
Proof.
  induction ms as [|[[[v w] two] ns] ms IH]; intros g h rem W Wh A OK; [exists h; rewrite app_nil_r; auto|].
  assert (NV : forall u, In u ns -> In u (vertices h)).
  { intros u Hu. destruct (OK _ (or_introl eq_refl)) as [_ [_ [_ [_ [_ [_ [HN _]]]]]]]. apply HN in Hu. destruct Hu as [Hu _]. unfold vertices. rewrite A. apply (edge_type_in_l g u v). rewrite (wf_sym g W). exact Hu. }
  assert (X : exists h1, supp_one (h, rem) (v, w, two, ns) = (h1, rem ++ [v; w]) /\ wfg h1 /\ gadj h1 = gadj g).
  { assert (S : forall f k, wfg k /\ gadj k = gadj g -> wfg (on_scalar f k) /\ gadj (on_scalar f k) = gadj g) by (intros f k [H1 H2]; split; [apply on_scalar_wfg; auto|exact H2]).
    assert (P : forall a k, wfg k /\ gadj k = gadj g -> wfg (add_phases ns a k) /\ gadj (add_phases ns a k) = gadj g).
    { intros a k [H1 H2]. split; [apply add_phases_wfg; auto; intros u Hu; apply NV in Hu; unfold vertices in *; congruence|]. rewrite add_phases_gadj. exact H2. }
    unfold supp_one. destruct (negb two); match goal with |- context [if ?c then _ else _] => destruct c end; eexists; (split; [reflexivity|]).
    all: repeat first [apply P|apply S]; auto. }
  destruct X as [h1 [E1 [W1 A1]]]. cbn [fold_left]. rewrite E1. destruct (IH g h1 (rem ++ [v; w]) W W1 A1) as [h' [E [W' A']]]; [intros m Hm; apply OK; simpl; auto|].
  exists h'. split; auto. rewrite E. cbn [flat_map]. rewrite <- app_assoc. reflexivity.
Qed.
Lemma supp_once_weak : forall c g, zg g -> ok_vertices_so AllC g c ->
  simp_once (fun g => Ok (match_supplementarity (snd c) (fst c) g, g)) apply_supplementarity g = Err KeyError \/
  exists b g', simp_once (fun g => Ok (match_supplementarity (snd c) (fst c) g, g)) apply_supplementarity g = Ok (b, g') /\ zg g' /\ rel g g' /\ (b = false -> g' = g) /\ tnum g' <= tnum g.
Proof.
  intros [c so] g [Z GL] [Oc SO]. cbn [fst snd] in *. assert (ZX := zi_zx _ Z). assert (W := zx_wf _ ZX).
  destruct (match_supp_weak so g SO W (zx_noloop _ ZX) c [] [] [] []) as [H1 H2].
  { exact (cand_ok_nd _ _ _ _ Oc (wf_nd g W)). } { intros v Hv; exact (cand_ok_in _ _ _ _ _ Oc Hv). } { intros k l w []. }
  { constructor; [intros u []|intros u t []|intros u []|intros u []]. }
  fold (match_supplementarity so c g) in H1, H2. set (ms := match_supplementarity so c g) in *.
  assert (OK : forall m, In m ms -> sm_ok g m) by (intros m Hm; apply H1; auto).
  destruct (supp_fold_weak ms g g [] W W eq_refl OK) as [h [E [Wh Ah]]]. cbn [app] in E.
  assert (EO : apply_supplementarity ms g = Ok (mkRw h [] (flat_map smr ms) [] true)) by (unfold apply_supplementarity; rewrite E; reflexivity).
  assert (NLh : noloop h) by (intros u; unfold edge_type; rewrite Ah; apply (zx_noloop _ ZX)).
  unfold simp_once. cbn [bind]. fold ms. clearbody ms. destruct (remove_vertices_cases (flat_map smr ms) h Wh NLh) as [[g3 [E3 ND]]|E3].
  - right. destruct ms as [|m0 ms0].
    + exists false, g. split; auto. split; [split; auto|]. split; [apply rel_refl; auto|]. auto.
    + remember (m0 :: ms0) as ms eqn:EM. destruct (supp_round g ms Z GL OK (sweak_far g ms W OK ND H2)) as [o [g' [E1 [E2 [SD [RL _]]]]]].
      rewrite E1. cbn [bind]. rewrite E2. cbn [bind]. exists true, g'. split; auto. split; [split; apply SD|]. split; auto. split; [discriminate|].
      rewrite EO in E1. injection E1 as <-. eapply apply_les; [|idtac|exact E2]; cbn [rw_graph]; auto. apply les_nceq; [apply wf_nd; auto|unfold vertices; rewrite Ah; auto|].
      apply (supp_nceq g ms _ EO).
  - left. destruct ms as [|m0 ms0]; [discriminate E3|]. rewrite EO. cbn [bind]. unfold apply_rw. cbn [rw_etab rw_graph rw_edges rw_verts rw_check]. cbn [add_edge_table remove_edges foldM bind].
    unfold add_edge_table, remove_edges. cbn [foldM bind]. rewrite E3. reflexivity.
Qed.

(** ** Every execution returns or raises KeyError *)
Definition parr {A} (I : graph -> Prop) (p : proc A) (J : A -> graph -> Prop) : Prop := forall g r, I g -> run p g r ->
  r = Err KeyError \/ exists a g', r = Ok (a, g') /\ J a g' /\ rel g g' /\ tnum g' <= tnum g.
Lemma parr_loop : forall A (body : A -> proc (A * bool)) (I : A -> graph -> Prop) (J : A -> graph -> Prop), (forall a g, I a g -> zxok g) ->
  (forall a, parr (I a) (body a) (fun ab g' => if snd ab then I (fst ab) g' else J (fst ab) g')) -> forall a, parr (I a) (ploop body a) J.
Proof.
  intros A body I J Z HB a g r HI R. simpl in R. induction R as [a g e R|a g a' g' R|a g a1 g1 r R L IH].
  - destruct (HB a g _ HI R) as [E|[x [y [E _]]]]; [left; injection E as ->; reflexivity|discriminate].
  - destruct (HB a g _ HI R) as [E|[x [y [E [H1 [H2 H3]]]]]]; [discriminate|]. injection E as <- <-. right. exists a', g'. auto.
  - destruct (HB a g _ HI R) as [E|[x [y [E [H1 [H2 H3]]]]]]; [discriminate|]. injection E as <- <-. cbn [fst snd] in H1.
    destruct (IH H1) as [E|[b [g' [E [K1 [K2 K3]]]]]]; [left; exact E|right]. exists b, g'. split; auto. split; auto. split; [eapply rel_trans; eauto|lia].
Qed.
Lemma supp_simp_parr : forall g r, zg g -> run supplementarity_simp g r ->
  r = Err KeyError \/ exists n g', r = Ok (n, g') /\ (zg g' /\ (n = 0 -> g' = g)) /\ rel g g' /\ tnum g' <= tnum g.
Proof.
  intros g r HI R.
  refine (match parr_loop _ _ (fun i g' => zg g' /\ rel g g' /\ (i = 0 -> g' = g)) (fun i g' => zg g' /\ rel g g' /\ (i = 0 -> g' = g)) _ _ 0 g r _ R with or_introl e => or_introl e | or_intror e => or_intror _ end).
  - intros a h [[Z _] _]. apply Z.
  - intros i h r' [HI' [R1 N1]] [[e [[c [Oc E]] ->]]|[b [g1 [[c [Oc E]] R']]]].
    + destruct (supp_once_weak c h HI' Oc) as [E'|[b' [g' [E' _]]]]; [left; congruence|congruence].
    + destruct (supp_once_weak c h HI' Oc) as [E'|[b' [g' [E' [H1 [H2 [H3 H4]]]]]]]; [congruence|]. rewrite E' in E. injection E as -> ->. right. exists (if b' then i + 1 else i, b'), g'.
      split; [exact R'|]. cbn [fst snd]. assert (rel g g') by (eapply rel_trans; eauto). split; [|auto]. destruct b'; (split; [auto|split; auto]); [lia|]. intros X. rewrite H3 by auto. auto.
  - split; auto. split; auto. apply rel_refl; apply HI.
  - destruct e as [n [g' [E [[H1 [H2 H3]] [H4 H5]]]]]. exists n, g'. auto.
Qed.
Lemma zg_x : forall g, zg g -> zinvx g.
Proof. intros g [Z GL]. split; auto. intros v Hv E. destruct (proj1 GL v Hv); congruence. Qed.
Theorem reduce_scalar_parr : parr zinvx reduce_scalar (fun _ => zgp).
Proof.
  unfold reduce_scalar. refine (parr_loop _ _ (fun _ => zinvx) (fun _ => zgp) _ _ 0); [intros _ g [Z _]; apply Z|]. intros i g r HX R.
  assert (BASE : forall A (p : proc A) h r, tot zinv p (fun g _ g' => keepb g g') -> mono zinv p -> (forall (K : C -> Prop) (P : Qc -> Prop), good K P -> psound (zxi P) p (fun g _ g' => step_k K g g' /\ zxi P g')) ->
    zinvx h -> run p h r -> exists a h', r = Ok (a, h') /\ zinvx h' /\ rel h h' /\ tnum h' <= tnum h).
  { intros A p h r0 T M S Hh Rh. destruct (T h r0 (proj1 Hh) Rh) as [a [h' [-> K]]]. exists a, h'. split; auto. split; [eapply keepb_x; eauto|]. split; [|eapply M; [apply Hh|exact Rh]].
    eapply rel_of_sound; eauto. apply (proj1 Hh). }
  assert (STEP : forall A B (p : proc A) (k : A -> proc B) h r, tot zinv p (fun g _ g' => keepb g g') -> mono zinv p -> (forall (K : C -> Prop) (P : Qc -> Prop), good K P -> psound (zxi P) p (fun g _ g' => step_k K g g' /\ zxi P g')) ->
    zinvx h -> run (pbind p k) h r -> exists a h', run p h (Ok (a, h')) /\ zinvx h' /\ rel h h' /\ tnum h' <= tnum h /\ run (k a) h' r).
  { intros A B p k h r0 T M S Hh [[e [R1 ->]]|[a [h' [R1 R2]]]].
    - destruct (BASE A p h _ T M S Hh R1) as [a [h' [E _]]]. discriminate.
    - destruct (BASE A p h _ T M S Hh R1) as [a0 [h0 [E [H1 [H2 H3]]]]]. injection E as <- <-. exists a, h'. auto. }
  apply STEP in R; auto; [|apply id_simp_tot|apply id_simp_mono|intros K P G; apply id_simp_sound; auto]. destruct R as [i1 [g1 [R1 [X1 [L1 [T1 R]]]]]].
  apply STEP in R; auto; [|apply spider_simp_tot|apply spider_simp_mono|intros K P G; apply spider_simp_sound; auto]. destruct R as [i2 [g2 [R2 [X2 [L2 [T2 R]]]]]].
  apply STEP in R; auto; [|apply pivot_simp_tot|apply pivot_simp_mono|intros K P G; apply pivot_simp_sound; auto]. destruct R as [i3 [g3 [R3 [X3 [L3 [T3 R]]]]]].
  apply STEP in R; auto; [|apply lcomp_simp_tot|apply lcomp_simp_mono|intros K P G; apply lcomp_simp_sound; auto]. destruct R as [i4 [g4 [R4 [X4 [L4 [T4 R]]]]]].
  assert (L : rel g g4) by (eapply rel_trans; [exact L1|eapply rel_trans; [exact L2|eapply rel_trans; eauto]]). assert (T : tnum g4 <= tnum g) by lia.
  destruct (Nat.eqb_spec (i1 + i2 + i3 + i4) 0) as [E0|E0]; cbn [negb] in R.
  2: { simpl in R. subst r. right. exists (i + 1, true), g4. cbn [fst snd]. auto. }
  assert (B : run (icl_body AllC i) g (Ok ((i, false), g4))).
  { unfold icl_body. right. exists i1, g1. split; auto. right. exists i2, g2. split; auto. right. exists i3, g3. split; auto. right. exists i4, g4. split; auto. rewrite (proj2 (Nat.eqb_eq _ _) E0). reflexivity. }
  destruct (icl_body_run AllC i g i false g4 (zi_zx _ (proj1 HX)) B) as [_ [-> [_ [[c2 [O2 M2]] [[c3 [so [O3 M3]]] _]]]]].
  destruct HX as [Zh NX]. assert (ZX := zi_zx _ Zh). assert (GL : glike g) by (eapply glike_of_nil; [apply ZX|apply ZX|apply ZX|exact NX|exact O2|exact M2]).
  assert (PS : psep g) by (eapply psep_of_nil; [apply ZX|apply ZX|exact GL|exact (proj1 O3)|exact M3]).
  assert (ZP : zgp g) by (split; auto).
  destruct R as [[e [R5 ->]]|[i5 [g5 [R5 R]]]]. { destruct (pivot_gadget_simp_zgp AllC g _ ZP R5) as [n [g' [E _]]]. discriminate. }
  assert (T5 := pivot_gadget_simp_mono AllC g _ _ (conj Zh GL) R5). destruct (pivot_gadget_simp_zgp AllC g _ ZP R5) as [n [g' [E [ZP5 [L5 N5]]]]]. injection E as <- <-.
  destruct R as [[e [R6 ->]]|[i6 [g6 [R6 R]]]]. { destruct (gadget_simp_totr AllC g5 _ ZP5 R6) as [n [g' [E _]]]. discriminate. }
  assert (T6 := gadget_simp_mono AllC g5 _ _ ZP5 R6). destruct (gadget_simp_totr AllC g5 _ ZP5 R6) as [n [g' [E [ZP6 L6]]]]. injection E as <- <-.
  assert (L' : rel g g6) by (eapply rel_trans; eauto).
  destruct (negb (Nat.eqb (i5 + i6) 0)). { simpl in R. subst r. right. exists (i + 1, true), g6. cbn [fst snd]. split; auto. split; [apply zg_x; split; apply ZP6|]. split; auto. lia. }
  assert (ZG6 : zg g6) by (split; apply ZP6).
  destruct R as [[e [R7 ->]]|[i7 [g7 [R7 R]]]].
  - destruct (supp_simp_parr g6 _ ZG6 R7) as [E|[n [g' [E _]]]]; [left; injection E as ->; reflexivity|discriminate].
  - destruct (supp_simp_parr g6 _ ZG6 R7) as [E|[n [g' [E [[ZG7 N7] [L7 T7]]]]]]; [discriminate|]. injection E as <- <-. right.
    assert (L8 : rel g g7) by (eapply rel_trans; eauto).
    destruct (Nat.eqb_spec i7 0) as [E|E]; simpl in R; subst r; eexists; exists g7; (split; [reflexivity|]); cbn [fst snd]; (split; [|split; [auto|lia]]).
    + rewrite N7 by auto. exact ZP6.
    + apply zg_x; auto.
Qed.

(** ** Running it *)
Definition exec_rs (f : nat) (g : graph) : option (nat * graph) :=
  exec_loop (fun i g =>
    obind (exec_id f g) (fun i1 g => obind (exec_spider f g) (fun i2 g => obind (exec_pivot f g) (fun i3 g => obind (exec_lcomp f g) (fun i4 g =>
    if negb (Nat.eqb (i1 + i2 + i3 + i4) 0) then Some ((i + 1, true), g) else
    obind (exec_pivot_gadget f g) (fun i5 g => obind (exec_gadget f g) (fun i6 g =>
    if negb (Nat.eqb (i5 + i6) 0) then Some ((i + 1, true), g) else
    obind (exec_supp f g) (fun i7 g => if Nat.eqb i7 0 then Some ((i, false), g) else Some ((i + 1, true), g))))))))) f 0 g.
Lemma exec_rs_run : forall f g n g', exec_rs f g = Some (n, g') -> run reduce_scalar g (Ok (n, g')).
Proof.
  intros f. unfold exec_rs, reduce_scalar. apply exec_loop_run. intros i.
  apply obind_run; [apply exec_id_run|]. intros i1. apply obind_run; [apply exec_spider_run|]. intros i2. apply obind_run; [apply exec_pivot_run|]. intros i3. apply obind_run; [apply exec_lcomp_run|]. intros i4.
  destruct (negb _). { intros g x g' H. injection H as <- <-. reflexivity. }
  apply obind_run; [apply exec_pivot_gadget_run|]. intros i5. apply obind_run; [apply exec_gadget_run|]. intros i6.
  destruct (negb _). { intros g x g' H. injection H as <- <-. reflexivity. }
  apply obind_run; [apply exec_supp_run|]. intros i7 g x g' H. destruct (Nat.eqb i7 0); injection H as <- <-; reflexivity.
Qed.
(** an execution that stops in the second round, with the error of its supplementarity step *)
Lemma rs_raises : forall f g i1 g1 e, obind (exec_id f g) (fun i1 g => obind (exec_spider f g) (fun i2 g => obind (exec_pivot f g) (fun i3 g => obind (exec_lcomp f g) (fun i4 g => Some (i1 + i2 + i3 + i4, g))))) = Some (S i1, g1) ->
  obind (exec_id f g1) (fun i1 g => obind (exec_spider f g) (fun i2 g => obind (exec_pivot f g) (fun i3 g => obind (exec_lcomp f g) (fun i4 g => obind (exec_pivot_gadget f g) (fun i5 g => obind (exec_gadget f g) (fun i6 g => Some (i1 + i2 + i3 + i4 + i5 + i6, g))))))) = Some (0, g1) ->
  simp_once (fun g => Ok (match_supplementarity id_so (vertices g1) g, g)) apply_supplementarity g1 = Err e ->
  run reduce_scalar g (Err e).
Proof.
  intros f g i1 g1 e H1 H2 H3. unfold reduce_scalar. unfold obind in H1.
  destruct (exec_id f g) as [[a1 h1]|] eqn:A1; [|discriminate]. destruct (exec_spider f h1) as [[a2 h2]|] eqn:A2; [|discriminate].
  destruct (exec_pivot f h2) as [[a3 h3]|] eqn:A3; [|discriminate]. destruct (exec_lcomp f h3) as [[a4 h4]|] eqn:A4; [|discriminate]. injection H1 as E1 ->.
  apply exec_id_run in A1. apply exec_spider_run in A2. apply exec_pivot_run in A3. apply exec_lcomp_run in A4.
  unfold obind in H2.
  destruct (exec_id f g1) as [[b1 k1]|] eqn:B1; [|discriminate]. destruct (exec_spider f k1) as [[b2 k2]|] eqn:B2; [|discriminate].
  destruct (exec_pivot f k2) as [[b3 k3]|] eqn:B3; [|discriminate]. destruct (exec_lcomp f k3) as [[b4 k4]|] eqn:B4; [|discriminate].
  destruct (exec_pivot_gadget f k4) as [[b5 k5]|] eqn:B5; [|discriminate]. destruct (exec_gadget f k5) as [[b6 k6]|] eqn:B6; [|discriminate]. injection H2 as E2 ->.
  apply exec_id_run in B1. apply exec_spider_run in B2. apply exec_pivot_run in B3. apply exec_lcomp_run in B4. apply exec_pivot_gadget_run in B5. apply exec_gadget_run in B6.
  cbn [run ploop]. eapply LR_go with (a1 := 1) (g1 := g1).
  - right. exists a1, h1. split; auto. right. exists a2, h2. split; auto. right. exists a3, h3. split; auto. right. exists a4, g1. split; auto. rewrite E1. reflexivity.
  - apply LR_err. right. exists b1, k1. split; auto. right. exists b2, k2. split; auto. right. exists b3, k3. split; auto. right. exists b4, k4. split; auto.
    replace (b1 + b2 + b3 + b4) with 0 by lia. cbn [Nat.eqb negb]. right. exists b5, k5. split; auto. right. exists b6, g1. split; auto. replace (b5 + b6) with 0 by lia. cbn [Nat.eqb negb].
    left. exists e. split; [|reflexivity]. apply LR_err. left. exists e. split; [|reflexivity]. exists (vertices g1, id_so). split; [split; [apply Permutation_refl|exact id_so_ok]|]. symmetry. exact H3.
Qed.

(** ** Correctness, and the exception *)
Theorem reduce_scalar_correct : forall g r, zinv g -> noX g -> run reduce_scalar g r ->
  r = Err KeyError \/ exists n g', r = Ok (n, g') /\ zinv g' /\ glike g' /\ psep g' /\ map_kept g g'.
Proof.
  intros g r Z N R. destruct (reduce_scalar_parr g r (conj Z N) R) as [E|[n [g' [E [[Z' [G' P']] [L _]]]]]]; [left; auto|right].
  exists n, g'. exact (conj E (conj Z' (conj G' (conj P' (rel_kept _ _ L))))).
Qed.
Theorem reduce_scalar_lowers : forall g n i g', zinv g -> noX g -> tcount_r g = Ok n -> run reduce_scalar g (Ok (i, g')) -> exists m, tcount_r g' = Ok m /\ m <= n.
Proof.
  intros g n i g' Z N T R. destruct (reduce_scalar_parr g _ (conj Z N) R) as [E|[i' [g0 [E [[Z' _] [_ L]]]]]]; [discriminate|]. injection E as <- <-.
  rewrite tcount_ok in T by apply (zi_zx _ Z). injection T as <-. exists (tnum g'). split; auto. apply tcount_ok, (zi_zx _ Z').
Qed.
Definition ex_cycles : graph := mkgraph
  [(ZSP, frac 1 4); (ZSP, 0%Qc); (ZSP, 0%Qc); (ZSP, frac 5 4); (ZSP, frac 5 4); (ZSP, 0%Qc); (ZSP, 0%Qc); (ZSP, frac 5 4)]
  [(0,1,HADAMARD); (1,2,HADAMARD); (2,3,HADAMARD); (3,0,HADAMARD); (4,5,HADAMARD); (5,6,HADAMARD); (6,7,HADAMARD); (7,4,HADAMARD)] [] [].
Lemma ex_cycles_run : run reduce_scalar ex_cycles (Err KeyError).
Proof.
  destruct (exec_id 9 ex_cycles) as [[i g1]|] eqn:E; [|vm_compute in E; discriminate].
  apply (rs_raises 9 ex_cycles 1 g1); vm_compute in E; injection E as _ <-; vm_compute; reflexivity.
Qed.
(** a valid closed graph-like diagram with no isolated spider on which it raises *)
Theorem reduce_scalar_raises_refuted : exists g, zinv g /\ glike g /\ allph quarter g /\ (forall v, In v (vertices g) -> neighbors g v <> []) /\ run reduce_scalar g (Err KeyError).
Proof.
  exists ex_cycles. assert (Z : zinv ex_cycles) by (apply zinvb_ok; vm_compute; reflexivity). split; auto.
  split; [apply RedFacts.glikeb_ok; [apply Z| |]; vm_compute; reflexivity|]. split; [apply allqb_ok; vm_compute; reflexivity|]. split; [|exact ex_cycles_run].
  intros v Hv. vm_compute in Hv. repeat destruct Hv as [<-|Hv]; try (vm_compute; discriminate). destruct Hv.
Qed.

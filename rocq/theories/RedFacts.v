(** Assembled statements about the growing pivots, gadget fusion and the
    strategies clifford_simp and full_reduce; runs of them on concrete
    diagrams; and two diagrams on which gadget_simp (with connected gadgets) and
    clifford_simp (with a filter) give a wrong value. *)
From Coq Require Import Reals ZArith QArith Qcanon List Bool Arith Lia Lra Permutation.
From Verif Require Import CNum Base ScalarModel ScalarProofs GraphModel GraphSem SumLemmas GraphProofs GraphOps StoreProofs
  RulesModel RuleLemmas SpiderProofs IsoProofs IdProofs LcompProofs PivotProofs GrowProofs PivotMatch GadgetProofs
  SimpModel ColorProofs SimpProofs PairProofs RuleShape TermProofs InvProofs RoundProofs BfixProofs TotalProofs Decide RunEx
  ZXFacts IsoExact GrowTotal FullTotal.
Import ListNotations.
Open Scope nat_scope.

Lemma rel_kept : forall g g', rel g g' -> map_kept g g'.
Proof.
  intros g g' R. refine (proj2 (kept_of_steps g g' _ _)).
  - apply (R nonzero anyph good_nonzero). intros v _; exact I.
  - intros Q. apply (R (eq C1) quarter good_quarter Q).
Qed.
Lemma totr_kept : forall A (I : graph -> Prop) (p : proc A) J, totr I p J ->
  forall g r, I g -> run p g r -> exists a g', r = Ok (a, g') /\ J a g' /\ map_kept g g'.
Proof.
  intros A I p J T g r HI R. destruct (T g r HI R) as [a [g' [E [HJ HR]]]]. exists a, g'. split; auto. split; auto. apply rel_kept; auto.
Qed.

Theorem pivot_gadget_correct : forall md g, zinv g -> glike g -> forall r, run (pivot_gadget_simp md) g r ->
  exists n g', r = Ok (n, g') /\ (zinv g' /\ glike g') /\ map_kept g g'.
Proof. intros md g Z G r R. exact (totr_kept _ _ _ _ (pivot_gadget_simp_totr md) g r (conj Z G) R). Qed.
Theorem pivot_boundary_correct : forall md g, zinv g -> glike g -> forall r, run (pivot_boundary_simp md) g r ->
  exists n g', r = Ok (n, g') /\ (zinv g' /\ glike g') /\ map_kept g g'.
Proof.
  intros md g Z G r R. destruct (pivot_boundary_simp_totr md g r (conj Z G) R) as [n [g' [E [HZ [HR _]]]]].
  exists n, g'. split; auto. split; auto. apply rel_kept; auto.
Qed.
Theorem gadget_correct : forall md g, zinv g -> glike g -> psep g -> forall r, run (gadget_simp md) g r ->
  exists n g', r = Ok (n, g') /\ (zinv g' /\ glike g' /\ psep g') /\ map_kept g g'.
Proof. intros md g Z G P r R. exact (totr_kept _ _ _ _ (gadget_simp_totr md) g r (conj Z (conj G P)) R). Qed.
Theorem clifford_correct : forall g, zinv g -> forall r, run (clifford_simp AllC) g r ->
  exists n g', r = Ok (n, g') /\ (zinv g' /\ glike g' /\ psep g') /\ map_kept g g'.
Proof. intros g Z r R. exact (totr_kept _ _ _ _ clifford_simp_totr g r Z R). Qed.
Theorem full_reduce_correct : forall g, zinv g -> forall r, run (full_reduce AllC) g r ->
  exists u g', r = Ok (u, g') /\ (zinv g' /\ glike g') /\ map_kept g g'.
Proof. intros g Z r R. exact (totr_kept _ _ _ _ full_reduce_totr g r Z R). Qed.

(** ** Running the strategies *)
Definition obind {A B} (o : option (A * graph)) (k : A -> graph -> option (B * graph)) : option (B * graph) :=
  match o with Some (a, g) => k a g | None => None end.
Fixpoint exec_loop {A} (body : A -> graph -> option ((A * bool) * graph)) (fuel : nat) (a : A) (g : graph) : option (A * graph) :=
  match fuel with
  | O => None
  | S fuel => match body a g with
              | Some ((a', true), g') => exec_loop body fuel a' g'
              | Some ((a', false), g') => Some (a', g')
              | None => None
              end
  end.
Lemma bind_run : forall A B (p : proc A) (k : A -> proc B) g a g1 b g2, run p g (Ok (a, g1)) -> run (k a) g1 (Ok (b, g2)) -> run (pbind p k) g (Ok (b, g2)).
Proof. intros. right. eauto. Qed.
Lemma obind_run : forall A B (p : proc A) (k : A -> proc B) (o : graph -> option (A * graph)) (f : A -> graph -> option (B * graph)),
  (forall g a g', o g = Some (a, g') -> run p g (Ok (a, g'))) -> (forall a g b g', f a g = Some (b, g') -> run (k a) g (Ok (b, g'))) ->
  forall g b g', obind (o g) f = Some (b, g') -> run (pbind p k) g (Ok (b, g')).
Proof. intros A B p k o f H1 H2 g b g' H. unfold obind in H. destruct (o g) as [[a g1]|] eqn:E; [|discriminate]. eapply bind_run; eauto. Qed.
Lemma exec_loop_run : forall A (body : A -> proc (A * bool)) (f : A -> graph -> option ((A * bool) * graph)),
  (forall a g x g', f a g = Some (x, g') -> run (body a) g (Ok (x, g'))) ->
  forall fuel a g b g', exec_loop f fuel a g = Some (b, g') -> run (ploop body a) g (Ok (b, g')).
Proof.
  intros A body f H fuel. induction fuel as [|fuel IH]; intros a g b g' E; simpl in E; [discriminate|].
  destruct (f a g) as [[[a1 []] g1]|] eqn:F; [| |discriminate].
  - simpl. eapply LR_go; [apply H; exact F|]. apply IH. exact E.
  - injection E as <- <-. simpl. apply LR_stop. apply H. exact F.
Qed.
Definition exec_gh (g : graph) : option (unit * graph) := match to_gh g with Ok g' => Some (tt, g') | Err _ => None end.
Lemma exec_gh_run : forall g u g', exec_gh g = Some (u, g') -> run p_to_gh g (Ok (u, g')).
Proof. intros g u g' H. unfold exec_gh in H. unfold p_to_gh. simpl. destruct (to_gh g) as [g1|] eqn:E; [|discriminate]. injection H as <- <-. reflexivity. Qed.
Section Fuel.
  Variable f : nat.
  Definition exec_interior (g : graph) : option (nat * graph) :=
    obind (exec_spider f g) (fun i0 => fun g => obind (exec_gh g) (fun _ => exec_loop (fun i g =>
      obind (exec_id f g) (fun i1 g => obind (exec_spider f g) (fun i2 g => obind (exec_pivot f g) (fun i3 g => obind (exec_lcomp f g) (fun i4 g =>
        Some (if negb (Nat.eqb (i1 + i2 + i3 + i4) 0) then (i + 1, true) else (i, false), g)))))) f 0)).
  Definition exec_clifford (g : graph) : option (nat * graph) :=
    exec_loop (fun i g => obind (exec_interior g) (fun k g => obind (exec_pivot_boundary f g) (fun i2 g => Some ((i + k, negb (Nat.eqb i2 0)), g)))) f 0 g.
  Definition exec_full (g : graph) : option (unit * graph) :=
    obind (if existsb (fun v => vtype_eqb (vty g v) HBOX) (vertices g) then None else Some (tt, g)) (fun _ g =>
    obind (exec_interior g) (fun _ g => obind (exec_pivot_gadget f g) (fun _ g =>
      exec_loop (fun _ g => obind (exec_clifford g) (fun _ g => obind (exec_gadget f g) (fun i g => obind (exec_interior g) (fun _ g =>
        obind (exec_pivot_gadget f g) (fun j g => Some ((tt, negb (Nat.eqb (i + j) 0)), g)))))) f tt g))).
  Lemma exec_interior_run : forall g n g', exec_interior g = Some (n, g') -> run (interior_clifford_simp AllC) g (Ok (n, g')).
  Proof.
    unfold exec_interior, interior_clifford_simp. apply obind_run; [apply exec_spider_run|]. intros i0. apply obind_run; [apply exec_gh_run|]. intros _.
    apply exec_loop_run. intros i. apply obind_run; [apply exec_id_run|]. intros i1. apply obind_run; [apply exec_spider_run|]. intros i2.
    apply obind_run; [apply exec_pivot_run|]. intros i3. apply obind_run; [apply exec_lcomp_run|]. intros i4 g x g' H. injection H as <- <-. destruct (Nat.eqb _ _); reflexivity.
  Qed.
  Lemma exec_clifford_run : forall g n g', exec_clifford g = Some (n, g') -> run (clifford_simp AllC) g (Ok (n, g')).
  Proof.
    unfold exec_clifford, clifford_simp. apply exec_loop_run. intros i. apply obind_run; [apply exec_interior_run|]. intros k.
    apply obind_run; [apply exec_pivot_boundary_run|]. intros i2 g x g' H. injection H as <- <-. reflexivity.
  Qed.
  Lemma exec_full_run : forall g n g', exec_full g = Some (n, g') -> run (full_reduce AllC) g (Ok (n, g')).
  Proof.
    unfold exec_full, full_reduce.
    apply (obind_run _ _ _ _ (fun g => if existsb (fun v => vtype_eqb (vty g v) HBOX) (vertices g) then None else Some (tt, g))).
    { intros g a g' H. cbn. destruct (existsb _ _); [discriminate|]. injection H as <- <-. reflexivity. }
    intros _. apply obind_run; [apply exec_interior_run|]. intros _. apply obind_run; [apply exec_pivot_gadget_run|]. intros _.
    apply exec_loop_run. intros _. apply obind_run; [apply exec_clifford_run|]. intros _. apply obind_run; [apply exec_gadget_run|]. intros i.
    apply obind_run; [apply exec_interior_run|]. intros _. apply obind_run; [apply exec_pivot_gadget_run|]. intros j g x g' H. injection H as <- <-. reflexivity.
  Qed.
End Fuel.

(** ** Two groups of gadgets sitting on each other *)
(** four gadgets: the axles 0, 1 are joined to the axles 2, 3; leaves 4-7 *)
Definition ex_two_groups (p q : Qc) : graph :=
  set_phase 4 p (set_phase 5 p (set_phase 6 q (set_phase 7 q (mkgraph
  [(ZSP, 0%Qc); (ZSP, 0%Qc); (ZSP, 0%Qc); (ZSP, 0%Qc); (ZSP, 0%Qc); (ZSP, 0%Qc); (ZSP, 0%Qc); (ZSP, 0%Qc)]
  [(0,2,HADAMARD); (0,3,HADAMARD); (1,2,HADAMARD); (1,3,HADAMARD); (0,4,HADAMARD); (1,5,HADAMARD); (2,6,HADAMARD); (3,7,HADAMARD)] [] [])))).
Definition tw (p q : Qc) : C := (C1 + cexp p * cexp p + cexp q * cexp q - cexp p * cexp p * cexp q * cexp q)%C.
Lemma two_groups_sem : forall p q b, sem (ex_two_groups p q) b = (sq2p (-2) * tw p q)%C.
Proof.
  intros p q b.
  transitivity ((sq2p (-1) * sq2p (-1)) * (sq2p (-1) * sq2p (-1) * (C1 + C1)) * (sq2p (-1) * sq2p (-1) * (C1 + C1)) * (sq2p (-1) * sq2p (-1) * (C1 + C1)) * tw p q)%C.
  2: { rewrite sq2p_m1_sq, <- sq2p_add. change (-1 + -1)%Z with (-2)%Z. ring. }
  unfold sem. replace (internal (ex_two_groups p q)) with [0;1;2;3;4;5;6;7] by reflexivity. unfold_sem.
  change {| this := 0; canon := Qred_involutive 0 |} with 0%Qc. rewrite ?cexp_qmod2, ?cexp_0.
  unfold tw. generalize (cexp p) (cexp q). intros P Q.
  unfold to_number. simpl. rewrite ?cexp_0, ?sq2p_0. ring.
Qed.
(** what gadget_simp leaves of it *)
Definition ex_two_left (g : graph) : Prop :=
  exec_gadget 5 (ex_two_groups (frac 1 4) (frac 1 4)) = Some (1, g).
Lemma two_left_sem : forall g b, ex_two_left g -> sem g b = (sq2p (-3) * tw (frac 1 4) (frac 1 4))%C.
Proof.
  intros g b H. unfold ex_two_left in H.
  assert (E : exists g0, exec_gadget 5 (ex_two_groups (frac 1 4) (frac 1 4)) = Some (1, g0) /\ internal g0 = [1;3;5;7] /\
     sem g0 b = (sq2p (-3) * tw (frac 1 4) (frac 1 4))%C).
  { eexists. split; [vm_compute; reflexivity|]. split; [reflexivity|].
    transitivity (sq2p (-2) * sq2p (-1) * (sq2p (-1) * sq2p (-1) * (C1 + C1)) * tw (frac 1 4) (frac 1 4))%C.
    2: { rewrite sq2p_m1_sq, <- sq2p_add. change (-2 + -1)%Z with (-3)%Z. ring. }
    assert (T : exists W, cexp (frac 1 2) = W /\ tw (frac 1 4) (frac 1 4) = (C1 + W + W - W * W)%C).
    { exists (cexp (frac 1 2)). split; auto. unfold tw. replace (cexp (frac 1 2)) with (cexp (frac 1 4) * cexp (frac 1 4))%C by (rewrite <- cexp_add; f_equal; apply Qc_is_canon; reflexivity). ring. }
    destruct T as [W [HW T]]. rewrite T.
    unfold sem. unfold internal. cbn [vertices gty gscalar dkeys map fst filter vty isB dget Nat.eqb]. unfold_sem.
    change {| this := 0; canon := Qred_involutive 0 |} with 0%Qc. change {| this := 1 # 2; canon := Qred_involutive (1 # 2) |} with (frac 1 2).
    rewrite HW, ?cexp_0. unfold to_number. simpl. rewrite ?cexp_0, ?sq2p_0. change (R1, R0) with C1. ring. }
  destruct E as [g0 [E [_ S]]]. rewrite E in H. injection H as <-. exact S.
Qed.
Lemma glikeb_ok : forall g, wfg g ->
  forallb (fun v => match vty g v with BOUNDARY | ZSP => true | _ => false end) (vertices g) = true ->
  forallb (fun u => forallb (fun v => match edge_type g u v with Some SIMPLE => isB g u || isB g v | _ => true end) (vertices g)) (vertices g) = true -> glike g.
Proof.
  intros g W H1 H2. rewrite forallb_forall in *. split.
  - intros v Hv. specialize (H1 v Hv). destruct (vty g v); auto; discriminate.
  - intros u v e E Tu Tv. destruct e; auto. exfalso. assert (Hu := edge_in_l _ _ _ _ E). assert (Hv : In v (vertices g)) by (rewrite (wf_sym g W) in E; exact (edge_in_l _ _ _ _ E)).
    specialize (H2 u Hu). rewrite forallb_forall in H2. specialize (H2 v Hv). rewrite E in H2. unfold isB in H2. rewrite Tu, Tv in H2. discriminate.
Qed.

Lemma tw_quarter : tw (frac 1 4) (frac 1 4) <> C0.
Proof.
  unfold tw. replace (cexp (frac 1 4) * cexp (frac 1 4))%C with Ci.
  2: { rewrite <- cexp_half, <- cexp_add. f_equal; try (apply Qc_is_canon; reflexivity). }
  replace (Ci * cexp (frac 1 4) * cexp (frac 1 4))%C with (Ci * Ci)%C.
  2: { rewrite <- cexp_half at 2. rewrite <- Cmult_assoc, <- cexp_add. f_equal; try (f_equal; try (apply Qc_is_canon; reflexivity)). }
  intros H. apply (f_equal snd) in H. unfold Cminus, Cplus, Copp, Cmult, Ci, C1, C0, RtoC in H. simpl in H. lra.
Qed.
Theorem gadget_simp_refuted : exists g n g', zinv g /\ glike g /\ allph quarter g /\ run (gadget_simp AllC) g (Ok (n, g')) /\
  forall b, sem g' b <> sem g b.
Proof.
  destruct (exec_gadget 5 (ex_two_groups (frac 1 4) (frac 1 4))) as [[n g']|] eqn:E; [|vm_compute in E; discriminate].
  assert (n = 1) by (vm_compute in E; congruence). subst n.
  exists (ex_two_groups (frac 1 4) (frac 1 4)), 1, g'.
  assert (Z : zinv (ex_two_groups (frac 1 4) (frac 1 4))) by (apply zinvb_ok; vm_compute; reflexivity).
  split; auto. split; [apply glikeb_ok; [apply Z| |]; vm_compute; reflexivity|].
  split; [apply allqb_ok; vm_compute; reflexivity|].
  split; [apply (exec_gadget_run 5); exact E|].
  intros b H. rewrite two_groups_sem, (two_left_sem _ b E) in H.
  assert (N := tw_quarter). rewrite (Cmult_comm (sq2p (-3))), (Cmult_comm (sq2p (-2))) in H. apply Cmult_cancel_l in H; auto.
  apply (f_equal (fun x => (x * sq2p 3)%C)) in H. rewrite <- !sq2p_add in H. change (-3 + 3)%Z with 0%Z in H. change (-2 + 3)%Z with 1%Z in H.
  rewrite sq2p_0, sq2p_1 in H. apply (f_equal fst) in H. unfold sq2, C1, RtoC in H. simpl in H.
  assert (1 < sqrt 2)%R by (rewrite <- sqrt_1 at 1; apply sqrt_lt_1; lra). lra.
Qed.

(** ** clifford_simp with a filter *)
(** an output on a spider that is joined to another one by a plain wire; the
    filter [matchf] accepts only the second spider, so the plain wire stays, and
    match_pivot_boundary takes it for a Hadamard wire *)
Definition ex_filter : graph := mkgraph [(BOUNDARY, 0%Qc); (ZSP, frac 1 4); (ZSP, 0%Qc)] [(0,1,SIMPLE); (1,2,SIMPLE)] [] [0].
Definition only2 (g : graph) : list nat := nodup Nat.eq_dec (filter (Nat.eqb 2) (vertices g)).
Definition noedge (g : graph) : list edge := [].
Definition fx_spider fuel g := simp_exec noedge (fun c g => Ok (match_spider_parallel c None g, g)) (fun _ => spider) fuel 0 g.
Definition fx_id fuel g := simp_exec only2 (fun c g => Ok (match_ids_parallel c None g, g)) (fun _ => remove_ids) fuel 0 g.
Definition fx_lcomp fuel g := simp_exec only2 (fun c g => Ok (match_lcomp_parallel c None g, g)) (fun _ => lcomp) fuel 0 g.
Definition fx_pivot fuel g := simp_exec (fun g => (noedge g, id_so)) (fun c g => Ok (match_pivot_parallel (fst c) None g, g)) (fun c => pivot (snd c)) fuel 0 g.
Definition fx_pb fuel g := simp_exec (fun g => (only2 g, id_so)) (fun c g => match_pivot_boundary (fst c) None g) (fun c => pivot (snd c)) fuel 0 g.
Definition fx_interior f (g : graph) : option (nat * graph) :=
    obind (fx_spider f g) (fun i0 => fun g => obind (exec_gh g) (fun _ => exec_loop (fun i g =>
      obind (fx_id f g) (fun i1 g => obind (fx_spider f g) (fun i2 g => obind (fx_pivot f g) (fun i3 g => obind (fx_lcomp f g) (fun i4 g =>
        Some (if negb (Nat.eqb (i1 + i2 + i3 + i4) 0) then (i + 1, true) else (i, false), g)))))) f 0)).
Definition fx_clifford f (g : graph) : option (nat * graph) :=
    exec_loop (fun i g => obind (fx_interior f g) (fun k g => obind (fx_pb f g) (fun i2 g => Some ((i + k, negb (Nat.eqb i2 0)), g)))) f 0 g.
Lemma only2_ok : forall g, cand_ok Filtered (vertices g) (only2 g).
Proof. intros g. split; [apply NoDup_nodup|]. intros x Hx. unfold only2 in Hx. apply nodup_In, filter_In in Hx. apply Hx. Qed.
Lemma noedge_ok : forall g, cand_ok Filtered (edges g) (noedge g).
Proof. intros g. split; [constructor|intros x []]. Qed.
Lemma fx_spider_run : forall f g n g', fx_spider f g = Some (n, g') -> run (spider_simp Filtered) g (Ok (n, g')).
Proof. intros. eapply simp_exec_run; [|eassumption]. apply noedge_ok. Qed.
Lemma fx_id_run : forall f g n g', fx_id f g = Some (n, g') -> run (id_simp Filtered) g (Ok (n, g')).
Proof. intros. eapply simp_exec_run; [|eassumption]. apply only2_ok. Qed.
Lemma fx_lcomp_run : forall f g n g', fx_lcomp f g = Some (n, g') -> run (lcomp_simp Filtered) g (Ok (n, g')).
Proof. intros. eapply simp_exec_run; [|eassumption]. apply only2_ok. Qed.
Lemma fx_pivot_run : forall f g n g', fx_pivot f g = Some (n, g') -> run (pivot_simp Filtered) g (Ok (n, g')).
Proof. intros. eapply simp_exec_run; [|eassumption]. intros; split; [apply noedge_ok|exact id_so_ok]. Qed.
Lemma fx_pb_run : forall f g n g', fx_pb f g = Some (n, g') -> run (pivot_boundary_simp Filtered) g (Ok (n, g')).
Proof. intros. eapply simp_exec_run; [|eassumption]. intros; split; [apply only2_ok|exact id_so_ok]. Qed.
Lemma fx_interior_run : forall f g n g', fx_interior f g = Some (n, g') -> run (interior_clifford_simp Filtered) g (Ok (n, g')).
Proof.
    intros f. unfold fx_interior, interior_clifford_simp. apply obind_run; [apply fx_spider_run|]. intros i0. apply obind_run; [apply exec_gh_run|]. intros _.
    apply exec_loop_run. intros i. apply obind_run; [apply fx_id_run|]. intros i1. apply obind_run; [apply fx_spider_run|]. intros i2.
    apply obind_run; [apply fx_pivot_run|]. intros i3. apply obind_run; [apply fx_lcomp_run|]. intros i4 g x g' H. injection H as <- <-. destruct (Nat.eqb _ _); reflexivity.
Qed.
Lemma fx_clifford_run : forall f g n g', fx_clifford f g = Some (n, g') -> run (clifford_simp Filtered) g (Ok (n, g')).
Proof.
    intros f. unfold fx_clifford, clifford_simp. apply exec_loop_run. intros i. apply obind_run; [apply fx_interior_run|]. intros k.
    apply obind_run; [apply fx_pb_run|]. intros i2 g x g' H. injection H as <- <-. reflexivity.
Qed.
Definition all1 : assignment := fun _ => true.
Theorem clifford_simp_filter_refuted : exists g n g', zinv g /\ run (clifford_simp Filtered) g (Ok (n, g')) /\ ~ same_upto g g'.
Proof.
  assert (E : exists g', fx_clifford 5 ex_filter = Some (0, g') /\ sem g' all1 = C0).
  { eexists. split; [vm_compute; reflexivity|]. unfold sem, internal. cbn [vertices gty gscalar dkeys map fst filter vty isB dget Nat.eqb]. unfold_sem.
    change {| this := 0; canon := Qred_involutive 0 |} with 0%Qc. rewrite ?cexp_0. ring. }
  destruct E as [g' [E S]]. exists ex_filter, 0, g'. split; [apply zinvb_ok; vm_compute; reflexivity|].
  split; [apply (fx_clifford_run 5); exact E|]. intros [_ [_ [k [Hk H]]]]. specialize (H all1). rewrite S in H.
  assert (V : sem ex_filter all1 = cexp (frac 1 4)).
  { unfold sem. replace (internal ex_filter) with [1;2] by reflexivity. unfold_sem.
    change {| this := 0; canon := Qred_involutive 0 |} with 0%Qc. rewrite ?cexp_0, ?cexp_qmod2. generalize (cexp {| this := 1 # 4; canon := Qred_involutive (1 # 4) |}). intros P. unfold to_number. simpl. rewrite ?cexp_0, ?sq2p_0. ring. }
  rewrite V in H. apply (f_equal (fun x => x * cexp (- frac 1 4)%Qc)%C) in H.
  replace (k * cexp (frac 1 4) * cexp (- frac 1 4)%Qc)%C with (k * (cexp (frac 1 4) * cexp (- frac 1 4)%Qc))%C in H by ring.
  rewrite cexp_opp_r in H. apply Hk. transitivity (k * C1)%C; [ring|]. rewrite <- H. ring.
Qed.
(** a checker for [psep], with the condition on interiors dropped *)
Lemma psepb_ok : forall g,
  forallb (fun n => forallb (fun n' => match edge_type g n n' with None => true | Some _ =>
     negb (is_pauli (phase g n)) || negb (is_pauli (phase g n')) || isB g n || isB g n' || Nat.eqb (length (neighbors g n)) 1 || Nat.eqb (length (neighbors g n')) 1 end)
     (vertices g ++ flat_map (neighbors g) (vertices g))) (vertices g) = true -> psep g.
Proof.
  intros g H n n' T T' P P' _ _ E. rewrite forallb_forall in H. destruct (edge_type g n n') as [e|] eqn:F; [|congruence].
  assert (Hn := edge_in_l _ _ _ _ F). specialize (H n Hn). rewrite forallb_forall in H.
  assert (I : In n' (vertices g ++ flat_map (neighbors g) (vertices g))).
  { apply in_or_app. right. apply in_flat_map. exists n. split; auto. apply neighbors_spec. congruence. }
  specialize (H n' I). rewrite F, P, P' in H. unfold isB in H. rewrite T, T' in H. cbn in H. apply orb_true_iff in H.
  destruct H as [H|H]; apply Nat.eqb_eq in H; auto.
Qed.

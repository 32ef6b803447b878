(** [basic_optimization] keeps the map of the circuit up to a global phase *)
From Coq Require Import Reals ZArith QArith Qcanon List Bool Arith Lia FunctionalExtensionality Permutation.
From Verif Require DepthProofs.
From Verif Require Import LinModel PermModel PermProofs CNum Base ScalarModel ScalarProofs GateModel OptModel GraphSem SumLemmas CircSpec GateProofs GateDecomp GateAdj OptTrace OptSem OptInv OptStep OptParse OptSort.
Import ListNotations.
Open Scope nat_scope.

(** ** the start of a pass *)
Lemma ginv_start : forall n, ginv n o_start [].
Proof. intros n. split; [exact rep_nil|constructor|intros g []|intros g []|intros g q []|intros q; apply avok_nil]. Qed.
Lemma pinv_start : forall n, pinv n o_start.
Proof. intros n. split; cbn [o_start o_hads o_nots o_zs o_perm]; [apply NoDup_nil|apply NoDup_nil|apply NoDup_nil|intros q []|intros q []|intros q []|intros a b E; exact E|auto|intros q H; exists q; auto|auto]. Qed.
Lemma pend_start : forall s, pend o_start s = s.
Proof. intros s. unfold pend. cbn [o_start o_perm o_zs o_nots o_hads]. change (hl [] s) with s. rewrite pau_nil. reflexivity. Qed.

(** ** the end of a pass *)
Lemma nremove_out : forall t l, ~ In t l -> nremove t l = l.
Proof. induction l as [|a l IH]; intros H; auto. simpl. destruct (Nat.eqb_spec a t) as [->|]; [exfalso; apply H; left; auto|]. rewrite IH; auto. intros K; apply H; right; auto. Qed.
Lemma hads_ok : forall n hs st W, ginv n st W -> pinv n st -> o_hads st = hs ->
  exists st' W', foldM (fun st t => add_hadamard t st) hs st = Ok st' /\ ginv n st' W' /\ pinv n st' /\
    o_nots st' = o_nots st /\ o_zs st' = o_zs st /\ o_perm st' = o_perm st /\ forall s, hl (o_hads st) (tden W s) = tden W' s.
Proof.
  induction hs as [|h hs IH]; intros st W GI PI E.
  - exists st, W. rewrite E. cbn [foldM]. do 6 (split; [auto|]). auto.
  - destruct (add_had_place n st W h GI PI) as [st1 [W1 [A [B [C [D [F [G [H K]]]]]]]]]; [rewrite E; left; auto|].
    assert (D' : o_hads st1 = hs) by (rewrite D, E; simpl; rewrite Nat.eqb_refl; auto).
    destruct (IH st1 W1 B C D') as [st2 [W2 [A2 [B2 [C2 [F2 [G2 [H2 K2]]]]]]]].
    exists st2, W2. cbn [foldM]. rewrite A. cbn [bind]. split; auto. split; auto. split; auto.
    split; [congruence|]. split; [congruence|]. split; [congruence|]. intros s. rewrite K, <- D. apply K2.
Qed.
(** forget which gates are available *)
Definition plain (st : ostate) : ostate := set_avail st (fun _ => []).
Lemma ginv_plain : forall n st W, ginv n st W -> ginv n (plain st) W.
Proof. intros n st W []. split; auto. intros q. apply avok_nil. Qed.
Definition zstep (st : ostate) (t : nat) : ostate := gates_app (tick st) t (o_count st, Zg t).
Lemma zs_ok : forall n zs st W, ginv n (plain st) W -> (forall q, In q zs -> q < n) ->
  exists W', ginv n (plain (fold_left zstep zs st)) W' /\ o_perm (fold_left zstep zs st) = o_perm st /\ o_nots (fold_left zstep zs st) = o_nots st /\
    forall s, tden W' s = cden (map Zg zs) (tden W s).
Proof.
  induction zs as [|z zs IH]; intros st W GI H.
  - exists W. auto.
  - destruct (IH (zstep st z) (W ++ [(o_count st, Zg z)])) as [W' [A [B [C D]]]].
    + apply (ginv_add' n (plain st)); auto.
      * cbn [fst]. intros J. apply in_map_iff in J. destruct J as [h [E J]]. apply (gi_lt _ _ _ GI) in J. cbn in J. lia.
      * cbn. lia.
      * cbn. lia.
      * cbn [snd]. intros q O. unfold Zg in O. rewrite onq_z in O. apply Nat.eqb_eq in O. subst. apply H. left; auto.
      * intros q. cbn [snd]. unfold Zg. rewrite onq_z. cbn. unfold fset. destruct (Nat.eqb_spec q z); subst; auto.
      * intros q. apply avok_nil.
    + intros q J. apply H. right; auto.
    + exists W'. cbn [fold_left]. split; auto. split; auto. split; auto. intros s. rewrite D, tden_snoc. cbn [snd map]. rewrite cden_cons. auto.
Qed.

(** the swaps rename the qubits *)
Definition gsw (ab : nat * nat) : gate := GSWAP (fst ab) (snd ab).
Lemma swaps_fun : forall n sw (x : assignment), (forall ij, In ij sw -> fst ij < snd ij < n) ->
  exists y : assignment, (forall s, cden (map gsw sw) s x = s y) /\ (forall q, q < n -> y q = nth q (run_swaps false (rev sw) (map x (seq 0 n))) false) /\ forall q, n <= q -> y q = x q.
Proof.
  intros n sw. induction sw as [|[i j] sw IH] using rev_ind; intros x H.
  - exists x. split; [reflexivity|]. split; auto. intros q Hq. cbn. rewrite (nth_indep _ _ (x 0)) by (rewrite map_length, seq_length; auto). rewrite map_nth, seq_nth; auto.
  - assert (Hij : i < j < n) by (apply (H (i, j)); apply in_or_app; right; left; auto).
    destruct (IH (fun q => x (tau i j q))) as [y [A [B C]]]; [intros; apply H; apply in_or_app; auto|].
    exists y. split; [|split].
    + intros s. rewrite map_app, cden_app. cbn [map]. rewrite cden_cons. change (cden [] ?u) with u. unfold gsw at 1. cbn [fst snd]. rewrite swap_rn. unfold rn. apply A.
    + intros q Hq. rewrite B by auto. rewrite rev_app_distr. cbn [rev app]. unfold run_swaps at 2. cbn [fold_left]. f_equal. unfold run_swaps. f_equal.
      unfold swap2. rewrite map_length, seq_length. apply map_ext_in. intros p Hp. apply in_seq in Hp. cbn [fst snd]. unfold tau.
      set (r := if Nat.eqb p i then j else if Nat.eqb p j then i else p). assert (Hr : r < n) by (unfold r; destruct (Nat.eqb_spec p i), (Nat.eqb_spec p j); lia).
      rewrite (nth_indep _ _ (x 0)) by (rewrite map_length, seq_length; auto). rewrite map_nth, seq_nth; auto.
    + intros q Hq. rewrite C by auto. unfold tau. rewrite !(proj2 (Nat.eqb_neq _ _)) by lia. auto.
Qed.
Lemma nodup_perm_seq : forall n l, NoDup l -> length l = n -> (forall q, In q l -> q < n) -> Permutation l (seq 0 n).
Proof.
  intros n l N L H. apply NoDup_Permutation_bis; auto; [rewrite seq_length; lia|]. intros q I. apply in_seq. specialize (H q I). lia.
Qed.
Lemma inj_nodup : forall (f : nat -> nat) l, inj f -> NoDup l -> NoDup (map f l).
Proof.
  intros f l J N. induction N as [|a l N1 N2 IH]; cbn [map]; constructor; auto. intros I. apply in_map_iff in I. destruct I as [b [E I]]. apply J in E. subst. auto.
Qed.
Lemma swaps_rn : forall n pm, inj pm -> (forall q, n <= q -> pm q = q) -> (forall q, q < n -> pm q < n) ->
  exists sw, permutation_as_swaps (map (fun i => (i, pm i)) (seq 0 n)) = Ok sw /\ (forall ij, In ij sw -> fst ij < snd ij < n) /\ forall s, cden (map gsw sw) s = rn pm s.
Proof.
  intros n pm J I L. set (p := map (fun i => (i, pm i)) (seq 0 n)). assert (Lp : length p = n) by (unfold p; rewrite map_length, seq_length; auto).
  assert (P : perm_dict p).
  { split; rewrite Lp; unfold p; rewrite map_map; cbn [fst snd].
    - rewrite map_id. apply Permutation_refl.
    - apply nodup_perm_seq; [apply inj_nodup; auto; apply seq_NoDup|rewrite map_length, seq_length; auto|]. intros q H. apply in_map_iff in H. destruct H as [i [<- H]]. apply in_seq in H. apply L. lia. }
  destruct (swaps_ok p P) as [sw [E [R _]]]. rewrite Lp in R. exists sw. split; auto. split; auto. intros s. apply state_ext. intros x.
  destruct (swaps_fun n sw x R) as [y [A [B C]]]. rewrite A. unfold rn. f_equal. apply functional_extensionality. intros q. destruct (le_lt_dec n q) as [H|H].
  - rewrite C, I by auto. auto.
  - rewrite B by auto. rewrite (swaps_rev p sw P E bool false (map x (seq 0 n)) ltac:(rewrite map_length, seq_length; auto) q (pm q)).
    + rewrite (nth_indep _ _ (x 0)) by (rewrite map_length, seq_length; auto). rewrite map_nth, seq_nth; auto.
    + unfold p. apply in_map_iff. exists q. split; auto. apply in_seq. lia.
Qed.

(** ** one pass *)
Definition cgate (n : nat) (g : gate) : Prop :=
  match g with GX KNOT t p => t < n /\ p = 1%Qc | GSWAP c t => c < n /\ t < n /\ c <> t | _ => False end.
Lemma wg_ogate : forall n g, wg g -> (forall q, onq q g = true -> q < n) -> ogate n g.
Proof.
  intros n g H L. destruct g; cbn in H; try contradiction; cbn [ogate].
  - apply L. unfold onq. cbn. rewrite Nat.eqb_refl. auto.
  - apply L. unfold onq. cbn. rewrite Nat.eqb_refl. auto.
  - split; [|split; auto]; apply L; unfold onq; cbn; rewrite ?Nat.eqb_refl, ?orb_true_r; auto.
  - split; [|split; auto]; apply L; unfold onq; cbn; rewrite ?Nat.eqb_refl, ?orb_true_r; auto.
Qed.
(** the placed gates are phase gates, Hadamards, CNOTs and CZs: no NOT, no SWAP *)
Theorem parse_forward_ok : forall n mz sw gs, Forall (ogate n) gs ->
  exists out cor, parse_forward n mz sw gs = Ok (out, cor) /\ Forall wg out /\ Forall (ogate n) out /\ Forall (cgate n) cor /\ eq_phase (cden (out ++ cor)) (cden gs).
Proof.
  intros n mz sw gs F. unfold parse_forward.
  destruct (parse_gates_ok n mz sw gs o_start [] (ginv_start n) (pinv_start n) F) as [st [W [z [A [GI [PI [Uz D]]]]]]]. rewrite A. cbn [bind].
  destruct (hads_ok n (o_hads st) st W GI PI eq_refl) as [st1 [W1 [A1 [G1 [P1 [N1 [Z1 [M1 D1]]]]]]]]. rewrite A1. cbn [bind].
  destruct (zs_ok n (o_zs st1) st1 W1 (ginv_plain _ _ _ G1) (p_zn _ _ P1)) as [W2 [G2 [M2 [N2 D2]]]].
  change (fun (st0 : ostate) (t : nat) => gates_app (tick st0) t (o_count st0, Zg t)) with zstep. set (st2 := fold_left zstep (o_zs st1) st1) in *.
  destruct (topological_sort_ok n (plain st2) W2 G2) as [out [A3 [T [Wo D3]]]]. change (o_gates (plain st2)) with (o_gates st2) in A3. rewrite A3. cbn [bind].
  destruct (swaps_rn n (o_perm st2)) as [swp [A4 [R4 D4]]].
  { rewrite M2. apply (p_inj _ _ P1). }
  { rewrite M2. apply (p_id _ _ P1). }
  { rewrite M2. apply (p_lt _ _ P1). }
  rewrite A4. cbn [bind]. change (fun ab : nat * nat => GSWAP (fst ab) (snd ab)) with gsw. eexists _, _. split; [reflexivity|]. split; [|split; [|split]].
  - apply Forall_forall. intros g I. apply in_map_iff in I. destruct I as [h [<- I]]. apply Wo; auto.
  - apply Forall_forall. intros g I. apply in_map_iff in I. destruct I as [h [<- I]]. apply wg_ogate; [apply Wo; auto|]. intros q O. apply (gi_n _ _ _ G2 h q); auto. apply (teq_in out W2); auto. apply teq_sym; auto.
  - apply Forall_app. split; apply Forall_forall; intros g I; apply in_map_iff in I; destruct I as [h [<- I]].
    + cbn. split; auto. rewrite N2 in I. apply (p_nn _ _ P1); auto.
    + cbn. specialize (R4 h I). lia.
  - rewrite N2. destruct (pau_gates (o_zs st1) (o_nots st1) (p_n _ _ P1)) as [w [Uw Ew]].
    assert (E : forall s x, cden (map snd out ++ map NOTg (o_nots st1) ++ map gsw swp) s x = (w * pend st (tden W s) x)%C).
    { intros s x. rewrite !cden_app, D4, M2, D3, D2. specialize (Ew (tden W1 s)). rewrite cden_app in Ew. rewrite Ew. unfold pend. rewrite D1, <- M1, <- N1, <- Z1. reflexivity. }
    exists (w * Cconj z)%C. split; [apply unit_mult; auto; unfold unitc in *; rewrite Cconj_invol, Cmult_comm; auto|].
    intros s x. rewrite E. specialize (D s). cbv beta in D. rewrite pend_start in D. change (tden [] s) with s in D. rewrite D.
    unfold unitc in Uz. replace (w * Cconj z * (z * pend st (tden W s) x))%C with (w * (z * Cconj z) * pend st (tden W s) x)%C by ring. rewrite Uz. ring.
Qed.

(** ** the postponed NOT and SWAP gates, as basic gates *)
Lemma extend_basic_ok : forall n cor gs, Forall (cgate n) cor -> Forall (ogate n) gs -> exists gs', extend_basic gs cor = Ok gs' /\ Forall (ogate n) gs' /\ forall s, cden gs' s = cden (gs ++ cor) s.
Proof.
  intros n cor. unfold extend_basic. induction cor as [|g cor IH]; intros gs F O.
  - exists gs. rewrite app_nil_r. auto.
  - inversion F as [|? ? F1 F2]; subst. cbn [foldM].
    assert (B : exists l, to_basic_gates g = Ok l /\ Forall (ogate n) l /\ forall s, cden l s = gden g s).
    { destruct g; cbn in F1; try contradiction.
      - match type of F1 with match ?k with _ => _ end => destruct k end; try contradiction. eexists. split; [reflexivity|]. split; [repeat constructor; tauto|reflexivity].
      - eexists. split; [reflexivity|]. split; [repeat constructor; intuition lia|]. intros s. apply swap_den. tauto. }
    destruct B as [l [-> [OL E]]]. cbn [bind]. destruct (IH (gs ++ l)) as [gs' [A [O' D]]]; auto; [apply Forall_app; auto|].
    exists gs'. split; auto. split; auto. intros s. rewrite D, !cden_app, cden_cons, E. auto.
Qed.

(** ** reading a circuit backwards *)
Definition cj (s : state) : state := fun x => Cconj (s x).
Lemma cj_cj : forall s, cj (cj s) = s. Proof. intros. apply state_ext. intros x. apply Cconj_invol. Qed.
Lemma cj_scale : forall z s, cj (fun x => (z * s x)%C) = fun x => (Cconj z * cj s x)%C. Proof. intros. apply state_ext. intros x. apply Cconj_mult. Qed.
Lemma conj_sq2 : Cconj sq2 = sq2. Proof. unfold sq2. apply Cconj_RtoC. Qed.
Lemma conj_inv : forall a, a <> C0 -> Cconj (/ a) = (/ Cconj a)%C.
Proof.
  intros a N. assert (N' : Cconj a <> C0) by (intros E; apply N; rewrite <- (Cconj_invol a), E; apply Cconj_0).
  assert (E : (Cconj (/ a) * Cconj a)%C = C1) by (rewrite <- Cconj_mult, Cinv_l, Cconj_1; auto).
  replace (Cconj (/ a)) with (Cconj (/ a) * Cconj a * / Cconj a)%C by (field; auto). rewrite E. ring.
Qed.
Lemma conj_isq2 : Cconj (/ sq2) = (/ sq2)%C.
Proof. rewrite conj_inv, conj_sq2; auto. apply sq2_neq0. Qed.
Lemma conj_half : Cconj (/ (C1 + C1)) = (/ (C1 + C1))%C.
Proof. rewrite conj_inv by (apply two_neq0). rewrite Cconj_plus, Cconj_1. auto. Qed.
(** the matrices of these gates are symmetric *)
Lemma gate_conj : forall n g s, ogate n g -> gden (to_adjoint g) (cj s) = cj (gden g s).
Proof.
  intros n g s O. apply state_ext. intros x. destruct g; cbn in O; try contradiction; cbn [to_adjoint gden]; unfold cj, op1.
  - rewrite Cconj_plus, !Cconj_mult. unfold mP, mk2. rewrite cexp_opp. destruct (x target); rewrite ?Cconj_1, ?Cconj_0; auto.
  - rewrite Cconj_plus, !Cconj_mult. unfold mXP, mk2. rewrite cexp_opp. destruct (x target); rewrite ?Cconj_mult, ?conj_half; unfold Cminus; rewrite ?Cconj_plus, ?Cconj_opp, ?Cconj_1; auto.
  - rewrite Cconj_plus, !Cconj_mult. unfold mH, mk2. destruct (x target); rewrite ?Cconj_opp, ?conj_isq2; auto.
  - auto.
  - rewrite Cconj_mult. f_equal. unfold sgn. destruct (x control && x target); rewrite ?Cconj_opp, ?Cconj_1; auto.
Qed.
Lemma gates_conj : forall n l s, Forall (ogate n) l -> cden (map to_adjoint l) (cj s) = cj (cden l s).
Proof. induction l as [|g l IH]; intros s F; auto. inversion F; subst. cbn [map]. rewrite !cden_cons, (gate_conj n) by auto. apply IH; auto. Qed.
Lemma ogate_adj : forall n g, ogate n g -> gate_ok g /\ adj_good g.
Proof.
  intros n g O. unfold gate_ok. destruct g; cbn in O; try contradiction; cbn [gate_qubits adj_good]; (split; [|exact I]); (split; [|split; [discriminate|auto]]);
    repeat constructor; cbn; intuition.
Qed.
Lemma adj_ogate : forall n g, ogate n g -> gate_ok (to_adjoint g) /\ adj_good (to_adjoint g).
Proof.
  intros n g O. unfold gate_ok. destruct g; cbn in O; try contradiction; cbn [to_adjoint gate_qubits adj_good]; (split; [|exact I]); (split; [|split; [discriminate|auto]]);
    repeat constructor; cbn; intuition.
Qed.
Lemma adj_adj : forall g, to_adjoint (to_adjoint g) = g.
Proof.
  intros g. destruct g; cbn [to_adjoint]; auto; rewrite ?Qcopp_involutive; auto.
  all: match goal with |- _ (_ (_ ?k)) _ _ = _ => destruct k; cbn; rewrite ?negb_involutive; auto end.
Qed.
Lemma rev_den : forall n l s, Forall (ogate n) l -> cden (rev l) s = cj (cden (map to_adjoint (rev l)) (cj s)).
Proof. intros n l s F. rewrite (gates_conj n), cj_cj; auto. apply Forall_rev; auto. Qed.
Lemma inv_l : forall n l s, Forall (ogate n) l -> cden (map to_adjoint (rev l)) (cden l s) = s.
Proof. intros n l s F. apply circ_adj. intros g I. rewrite Forall_forall in F. apply (ogate_adj n); auto. Qed.
Lemma inv_r : forall n l s, Forall (ogate n) l -> cden l (cden (map to_adjoint (rev l)) s) = s.
Proof.
  intros n l s F. assert (E := circ_adj (map to_adjoint (rev l)) s). rewrite <- map_rev, rev_involutive, map_map in E.
  rewrite (map_ext _ (fun g => g) adj_adj), map_id in E. apply E. intros g I. apply in_map_iff in I. destruct I as [h [<- I]]. apply in_rev in I.
  rewrite Forall_forall in F. specialize (F h I). apply (adj_ogate n); auto.
Qed.

Lemma conj_unit : forall z, unitc z -> unitc (Cconj z).
Proof. intros z U. unfold unitc in *. rewrite Cconj_invol, Cmult_comm. auto. Qed.
Lemma phase_rev : forall n l l', Forall (ogate n) l -> Forall (ogate n) l' -> eq_phase (cden l) (cden l') -> eq_phase (cden (rev l)) (cden (rev l')).
Proof.
  intros n l l' F F' [z [U E]]. exists z. split; auto. intros s x.
  assert (K : forall u, cden (map to_adjoint (rev l)) u = fun x => (Cconj z * cden (map to_adjoint (rev l')) u x)%C).
  { intros u. rewrite <- (inv_r n l' u F') at 1. set (v := cden (map to_adjoint (rev l')) u).
    assert (Ev : cden l' v = fun x => (Cconj z * cden l v x)%C).
    { apply state_ext. intros y. rewrite E. unfold unitc in U. replace (Cconj z * (z * cden l' v y))%C with (z * Cconj z * cden l' v y)%C by ring. rewrite U. ring. }
    rewrite Ev, cden_scale, (inv_l n) by auto. auto. }
  rewrite (rev_den n l), (rev_den n l'), K by auto. rewrite cj_scale, Cconj_invol. auto.
Qed.
Lemma phase_refl : forall f, eq_phase f f.
Proof. intros f. exists C1. split; [apply unit_1|]. intros. ring. Qed.
Lemma phase_trans : forall f g h, eq_phase f g -> eq_phase g h -> eq_phase f h.
Proof. intros f g h [z [U E]] [w [V F]]. exists (z * w)%C. split; [apply unit_mult; auto|]. intros s x. rewrite E, F. ring. Qed.
Lemma phase_ext : forall f f' g, (forall s, f s = f' s) -> eq_phase f' g -> eq_phase f g.
Proof. intros f f' g E [z [U H]]. exists z. split; auto. intros s x. rewrite E. apply H. Qed.

(** ** the loop *)
Lemma stats_ok : forall gs a, Forall wg gs -> exists s, foldM stats_step gs a = Ok s.
Proof.
  induction gs as [|g gs IH]; intros a F; [exists a; auto|]. inversion F as [|? ? F1 F2]; subst. cbn [foldM]. destruct a as [[h t] p].
  destruct g; cbn in F1; try contradiction; cbn [stats_step phase_not_pi bind]; apply IH; auto.
Qed.
(** one pass over the reversed circuit, and one back *)
Lemma pass_ok : forall n mz sw gs, Forall (ogate n) gs -> exists p1 g1 p2, parse_forward n mz sw (rev gs) = Ok p1 /\ extend_basic (fst p1) (snd p1) = Ok g1 /\
  parse_forward n mz sw (rev g1) = Ok p2 /\ Forall wg (fst p2) /\ Forall (ogate n) (fst p2) /\ Forall (cgate n) (snd p2) /\ eq_phase (cden (fst p2 ++ snd p2)) (cden gs).
Proof.
  intros n mz sw gs F. destruct (parse_forward_ok n mz sw (rev gs) (Forall_rev F)) as [o1 [c1 [A [B [C [D E]]]]]].
  destruct (extend_basic_ok n c1 o1 D C) as [g1 [A1 [F1 E1]]].
  destruct (parse_forward_ok n mz sw (rev g1) (Forall_rev F1)) as [o2 [c2 [A2 [B2 [C2 [D2 E2]]]]]].
  exists (o1, c1), g1, (o2, c2). cbn [fst snd]. do 6 (split; [auto|]). apply (phase_trans _ _ _ E2).
  rewrite <- (rev_involutive gs). apply (phase_rev n); auto; [apply Forall_rev; auto|]. apply (phase_ext _ (cden (o1 ++ c1))); auto.
Qed.
Definition good (n : nat) (gs : list gate) (p : list gate * list gate) : Prop :=
  Forall wg (fst p) /\ Forall (ogate n) (fst p) /\ Forall (cgate n) (snd p) /\ eq_phase (cden (fst p ++ snd p)) (cden gs).
Lemma opt_loop_ok : forall fuel n sw maxit i mz count gs, Forall (ogate n) gs -> (mz = false -> maxit <= i + fuel /\ 2 <= fuel) -> (mz = true -> maxit <= i + fuel /\ 1 <= fuel) ->
  exists p, opt_loop fuel n sw maxit i mz count gs = Ok p /\ good n gs p.
Proof.
  induction fuel as [|fuel IH]; intros n sw maxit i mz count gs F H0 H1; [destruct mz; [destruct (H1 eq_refl)|destruct (H0 eq_refl)]; lia|].
  destruct (pass_ok n mz sw gs F) as [p1 [g1 [p2 [A [B [C [D [E [G K]]]]]]]]]. cbn [opt_loop]. rewrite A. cbn [bind]. rewrite B. cbn [bind]. rewrite C. cbn [bind].
  destruct (stats_ok (fst p2) (0, 0, 0) D) as [s Es]. unfold stats. rewrite Es. cbn [bind].
  destruct (mz && (stats_le count s || Nat.leb maxit (Datatypes.S i))) eqn:T.
  - exists p2. split; auto. split; auto.
  - destruct (extend_basic_ok n (snd p2) (fst p2) G E) as [g2 [A2 [F2 E2]]]. rewrite A2. cbn [bind].
    destruct (IH n sw maxit (Datatypes.S i) true s g2 F2) as [p [Ep [P1 [P2 [P3 P4]]]]]; [discriminate| |].
    + intros _. destruct mz.
      * destruct (H1 eq_refl) as [L _]. cbn [andb] in T. apply orb_false_iff in T. destruct T as [_ T]. apply Nat.leb_gt in T. lia.
      * destruct (H0 eq_refl). lia.
    + exists p. split; auto. split; auto. split; auto. split; auto. apply (phase_trans _ _ _ P4). apply (phase_ext _ (cden (fst p2 ++ snd p2))); auto.
Qed.
Theorem parse_circuit_sep_ok : forall sw maxit c, Forall (ogate (cqubits c)) (cgates c) ->
  exists c' cor, parse_circuit_sep sw maxit c = Ok (c', cor) /\ cqubits c' = cqubits c /\ Forall wg (cgates c') /\ Forall (ogate (cqubits c)) (cgates c') /\ Forall (cgate (cqubits c)) cor /\
    eq_phase (cden (cgates c' ++ cor)) (cden (cgates c)).
Proof.
  intros sw maxit c F. unfold parse_circuit_sep. destruct (parse_forward_ok (cqubits c) false sw (cgates c) F) as [o [cr [A [B [C [D E]]]]]]. rewrite A. cbn [bind fst snd].
  destruct (stats_ok o (0, 0, 0) B) as [s Es]. unfold stats. rewrite Es. cbn [bind]. destruct (extend_basic_ok _ cr o D C) as [g0 [A0 [F0 E0]]]. rewrite A0. cbn [bind].
  destruct (opt_loop_ok (Datatypes.S (Datatypes.S maxit)) (cqubits c) sw maxit 0 false s g0 F0) as [p [Ep [P1 [P2 [P3 P4]]]]]; [lia|lia|]. rewrite Ep. cbn [bind].
  exists (mkCirc (cqubits c) (fst p)), (snd p). cbn [cqubits cgates]. do 5 (split; [auto|]). apply (phase_trans _ _ _ P4). apply (phase_ext _ (cden (o ++ cr))); auto.
Qed.
Theorem parse_circuit_ok : forall sw maxit c, Forall (ogate (cqubits c)) (cgates c) ->
  exists c', parse_circuit sw maxit c = Ok c' /\ cqubits c' = cqubits c /\ Forall (ogate (cqubits c)) (cgates c') /\ eq_phase (cden (cgates c')) (cden (cgates c)).
Proof.
  intros sw maxit c F. unfold parse_circuit. destruct (parse_circuit_sep_ok sw maxit c F) as [c' [cor [A [B [C [D [E G]]]]]]]. rewrite A. cbn [bind fst snd].
  destruct (extend_basic_ok _ cor (cgates c') E D) as [gs' [A' [F' E']]]. rewrite A'. cbn [bind]. exists (mkCirc (cqubits c') gs'). cbn [cqubits cgates]. split; auto. split; auto. split; auto.
  apply (phase_ext _ (cden (cgates c' ++ cor))); auto.
Qed.

(** ** gates that are not supported *)
Theorem unsupported : forall sw maxit n l1 g l2 t, Forall (ogate n) l1 -> gate_target g = Ok t -> t < n ->
  (match g with GHAD _ | GZ _ _ _ | GX KNOT _ _ | GCZ _ _ | GCNOT _ _ => False | _ => True end) ->
  parse_circuit sw maxit (mkCirc n (l1 ++ g :: l2)) = Err TypeError.
Proof.
  intros sw maxit n l1 g l2 t F T L U. unfold parse_circuit, parse_circuit_sep, parse_forward. cbn [cqubits cgates].
  destruct (parse_gates_ok n false sw l1 o_start [] (ginv_start n) (pinv_start n) F) as [st [W [z [A [GI [PI _]]]]]].
  rewrite DepthProofs.foldM_app, A. cbn [bind foldM]. unfold parse_gate at 1. rewrite T. cbn [bind]. destruct (perm_inv_ok n st t PI L) as [i [-> _]]. cbn [bind].
  destruct g; try contradiction; try reflexivity. match type of U with match ?k with _ => _ end => destruct k end; try contradiction; reflexivity.
Qed.
Theorem basic_gates_refuted : exists c c', circ_ok c /\ c_basic c = Ok c' /\ c' <> c /\ basic_optimization true c' = Err TypeError.
Proof.
  exists (mkCirc 1 [GY KYPhase 0 1%Qc]). eexists. split; [|split; [reflexivity|split; [discriminate|]]].
  - intros g [<-|[]]. split; [split; [|split]|]; cbn; auto; [repeat constructor; auto|discriminate|]. intros q [<-|[]]. lia.
  - unfold basic_optimization. cbn [cqubits cgates concat app]. unfold yphase_basic, XPhase. cbn [app].
    apply (unsupported true 1000 1 [ZPhase 0 (frac 1 2)] (GX KXPhase 0 (- (1))%Qc) [ZPhase 0 (- frac 1 2)%Qc] 0); auto. repeat constructor.
Qed.
Definition ex_opt : list gate :=
  [GCNOT 0 1; GHAD 0; Tg 0 false; GHAD 0; NOTg 1; Tg 2 false; GHAD 2; GCNOT 2 1; GCNOT 1 2; Tg 1 false; GCNOT 2 1; Tg 2 false].
Lemma ex_opt_ok : Forall (ogate 3) ex_opt.
Proof. repeat constructor; lia. Qed.
Lemma ex_opt_run : exists l, parse_circuit_sep true 1000 (mkCirc 3 ex_opt) = Ok (mkCirc 3 l, [NOTg 1; GSWAP 1 2]) /\ length ex_opt = 12 /\ length l = 10.
Proof. eexists. split; [vm_compute; reflexivity|]. split; reflexivity. Qed.

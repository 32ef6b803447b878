(** Executing find_stabilizer_decomp: a diagram with more terms than max_terms_needed. *)
From Coq Require Import Reals ZArith QArith Qcanon List Bool Arith Lia Lra.
From Verif Require Import LinModel LinProofs CNum Base ScalarModel ScalarProofs GraphModel GraphSem GraphProofs
  RulesModel RuleLemmas SimpModel TotalProofs Decide RunEx ZXFacts RedFacts GraphAlgModel GraphAlgProofs AlgUse GraphAlgFacts GateModel VerifyProofs MagicModel MagicAlg MagicFacts MagicSum BfixProofs GrowTotal SimuModel ReduceScalar StabProofs.
Import ListNotations.
Open Scope nat_scope.

(** ** Replacing magic states does not set the zero flag *)
Definition zf (g : graph) : bool := is_zero (gscalar g).
Lemma zf_edge : forall s t et g g', add_edge s t et g = Ok g' -> zf g' = zf g.
Proof.
  intros s t et g g' H. unfold add_edge in H. destruct (dget s (gadj g)); [|discriminate]. destruct (dget t d).
  - inv_bind H. inv_bind H. destruct (vertex_is_zx_like a && vertex_is_zx_like a0); [|discriminate].
    assert (S1 : forall k k', set_edge_type s t SIMPLE k = Ok k' \/ set_edge_type s t HADAMARD k = Ok k' -> zf k' = zf k).
    { intros k k' [X|X]; unfold set_edge_type in X; inv_bind X; inv_bind X; injection X as <-; reflexivity. }
    assert (S2 : forall k k', remove_edge s t k = Ok k' -> zf k' = zf k).
    { intros k k' X; unfold remove_edge in X; inv_bind X; inv_bind X; injection X as <-; reflexivity. }
    destruct (Bool.eqb _ _), et, e; cbn in H; try discriminate; try (injection H as <-; reflexivity).
    all: inv_bind H; injection H as <-; change (zf a1 = zf g); first [apply S2; assumption|apply S1; auto].
  - unfold set_edge_type in H. inv_bind H. inv_bind H. injection H as <-. reflexivity.
Qed.
Lemma zf_edges : forall es et g g', add_edges es et g = Ok g' -> zf g' = zf g.
Proof.
  intros es et. unfold add_edges. induction es as [|[s t] es IH]; intros g g' H; cbn [foldM] in H; [injection H as <-; reflexivity|]. inv_bind H. apply IH in H. rewrite H.
  unfold set_edge_type in E. inv_bind E. inv_bind E. injection E as <-. reflexivity.
Qed.
Lemma zf_vertex : forall t q r p g, zf (fst (add_vertex t q r p g)) = zf g.
Proof. intros. unfold add_vertex. cbn [fst]. destruct (qeqb _ _); reflexivity. Qed.
Lemma zf_fold : forall (F : graph -> nat -> graph) l g, (forall g v, zf (F g v) = zf g) -> zf (fold_left F l g) = zf g.
Proof. intros F l. induction l as [|v l IH]; intros g H; auto. cbn [fold_left]. rewrite IH; auto. Qed.
Lemma zf_float : forall f g, f <> C0 -> zf (on_scalar (s_add_float f) g) = zf g.
Proof. intros f g N. unfold zf, on_scalar, s_add_float, with_scalar; cbn. destruct (C_eq_dec f C0); [contradiction|reflexivity]. Qed.
Lemma zf_power : forall n g, zf (on_scalar (s_add_power n) g) = zf g. Proof. reflexivity. Qed.
Lemma zf_phase : forall n g, zf (on_scalar (s_add_phase n) g) = zf g. Proof. reflexivity. Qed.
Lemma zf_atp : forall v p g, zf (add_to_phase v p g) = zf g. Proof. reflexivity. Qed.
(** a + b sqrt 2 with a^2 <> 2 b^2 *)
Lemma lin_nz : forall a b, (a * a - 2 * b * b)%Z <> 0%Z -> (cz a + cz b * csq2)%C <> C0.
Proof.
  intros a b H E. apply H. apply eq_IZR. assert (X : cz (a * a - 2 * b * b) = C0).
  { transitivity ((cz a + cz b * csq2) * (cz a - cz b * csq2))%C; [|rewrite E; ring]. rewrite cz_sub, !cz_mul. assert (S : (csq2 * csq2)%C = cz 2) by (unfold csq2; rewrite <- sq2p_add; change (1 + 1)%Z with 2%Z; rewrite sq2p_2; unfold cz; cring).
    transitivity (cz a * cz a - cz b * cz b * (csq2 * csq2))%C; [rewrite S; ring|ring]. }
  unfold cz, RtoC in X. injection X as X. exact X.
Qed.
Lemma magic_nz : MAGIC_B60 <> C0 /\ MAGIC_B66 <> C0 /\ MAGIC_E6 <> C0 /\ MAGIC_O6 <> C0 /\ MAGIC_K6 <> C0 /\ MAGIC_PHI <> C0 /\ MAGIC_GLOBAL <> C0.
Proof.
  assert (S : forall a b, (a * a - 2 * b * b)%Z <> 0%Z -> (cz a - cz b * csq2)%C <> C0).
  { intros a b H E. apply (lin_nz a (- b)); [lia|]. rewrite cz_opp, <- E. ring. }
  repeat split; [apply lin_nz|apply S|apply S|apply lin_nz|apply S|apply S|]; try discriminate.
  unfold MAGIC_GLOBAL. assert (N1 : (cz 7 + cz 5 * csq2)%C <> C0) by (apply lin_nz; discriminate).
  assert (N2 : (cz 2 + cz 2 * Ci)%C <> C0). { intros E. apply (f_equal fst) in E. cbn in E. lra. }
  intros E. destruct (Cmult_integral (cz 7 + cz 5 * csq2) (Cinv (cz 2 + cz 2 * Ci))%C) as [X|X]; auto.
  - transitivity (- (- ((cz 7 + cz 5 * csq2) * Cinv (cz 2 + cz 2 * Ci))))%C; [ring|rewrite E; ring].
  - exact (Cinv_neq0 _ N2 X).
Qed.
Definition zk (f : graph -> list nat -> res graph) : Prop := forall g vs h, f g vs = Ok h -> zf h = zf g.
Local Opaque MAGIC_PHI on_scalar add_vertex add_edge add_edges zf frac qneg1 half mquarter.
Lemma zk_phi : zk replace_phi1.
Proof.
  destruct magic_nz as [_ [_ [_ [_ [_ [N _]]]]]]. intros g vs h H. unfold replace_phi1 in H. inv_bind H.
  destruct (add_vertex _ _ _ _ _) as [g1 w] eqn:A in H. inv_bind H. inv_bind H. destruct a1 as [g2 ws].
  assert (F : forall l st st', foldM (phi_leg w) l st = Ok st' -> zf (fst st') = zf (fst st)).
  { induction l as [|v l IH]; intros [k ks] st' X; cbn [foldM] in X; [injection X as <-; auto|]. inv_bind X. apply IH in X. rewrite X. unfold phi_leg in E2. destruct (add_vertex _ _ _ _ _) as [k1 w1] eqn:A1 in E2. inv_bind E2. injection E2 as <-.
    cbn [fst]. rewrite (zf_edges _ _ _ _ E3). apply (f_equal fst) in A1. cbn [fst] in A1. rewrite <- A1, zf_vertex, zf_atp. reflexivity. }
  apply F in E1. cbn [fst] in E1. assert (X : zf h = zf g2).
  { destruct ws as [|w1 [|w2 [|w3 [|w4 [|w5 [|]]]]]]; try discriminate. apply (zf_edges _ _ _ _ H). }
  rewrite X, E1, (zf_edge _ _ _ _ _ E0). apply (f_equal fst) in A. cbn [fst] in A. rewrite zf_atp, <- A, zf_vertex, zf_phase, zf_power. apply zf_float; auto.
Qed.
Lemma zk_terms : forall k f, In f (replace_functions k) -> zk f.
Proof.
  destruct magic_nz as [N1 [N2 [N3 [N4 [N5 _]]]]].
  assert (SH : forall p vs g, zf (shift_all p vs g) = zf g) by (intros; apply zf_fold; reflexivity).
  assert (S2 : forall p q vs g, zf (fold_left (fun g v => add_to_phase v p (add_to_phase v q g)) vs g) = zf g) by (intros; apply zf_fold; reflexivity).
  intros k f Hf. unfold replace_functions in Hf. destruct (Nat.eqb k 6); [|destruct (Nat.eqb k 2)]; cbn [In] in Hf.
  - destruct Hf as [<-|[<-|[<-|[<-|[<-|[<-|[<-|[]]]]]]]]; intros g vs h H.
    + injection H as <-. rewrite SH. rewrite ?zf_phase, ?zf_power. apply zf_float; auto.
    + injection H as <-. rewrite S2. rewrite ?zf_phase, ?zf_power. apply zf_float; auto.
    + unfold replace_E6 in H. destruct (add_vertex _ _ _ _ _) as [g1 w] eqn:A in H. rewrite (zf_edges _ _ _ _ H). apply (f_equal fst) in A. cbn [fst] in A. rewrite <- A, zf_vertex, S2. rewrite ?zf_phase, ?zf_power. apply zf_float; auto.
    + unfold replace_O6 in H. destruct (add_vertex _ _ _ _ _) as [g1 w] eqn:A in H. rewrite (zf_edges _ _ _ _ H). apply (f_equal fst) in A. cbn [fst] in A. rewrite <- A, zf_vertex, S2. rewrite ?zf_phase, ?zf_power. apply zf_float; auto.
    + unfold replace_K6 in H. destruct (add_vertex _ _ _ _ _) as [g1 w] eqn:A in H. rewrite (zf_edges _ _ _ _ H). apply (f_equal fst) in A. cbn [fst] in A. rewrite <- A, zf_vertex, SH. rewrite ?zf_phase, ?zf_power. apply zf_float; auto.
    + apply (zk_phi g vs h H).
    + unfold replace_phi2 in H. destruct vs as [|v1 [|v2 [|v3 [|v4 [|v5 [|v6 [|]]]]]]]; try discriminate. apply (zk_phi _ _ _ H).
  - destruct Hf as [<-|[<-|[]]]; intros g vs h H.
    + unfold replace_2_S in H. inv_bind H. inv_bind H. destruct (add_vertex _ _ _ _ _) as [g1 w] eqn:A in H. inv_bind H. injection H as <-. rewrite SH, (zf_edges _ _ _ _ E1). apply (f_equal fst) in A. cbn [fst] in A. rewrite <- A, zf_vertex. rewrite ?zf_power, ?zf_phase. reflexivity.
    + unfold replace_2_N in H. inv_bind H. inv_bind H. destruct (add_vertex _ _ _ _ _) as [g1 w] eqn:A in H. inv_bind H. injection H as <-. rewrite SH, (zf_edges _ _ _ _ E1). apply (f_equal fst) in A. cbn [fst] in A. rewrite <- A, zf_vertex. rewrite ?zf_power, ?zf_phase. reflexivity.
  - destruct Hf as [<-|[<-|[]]]; intros g vs h H.
    + unfold replace_1_0 in H. inv_bind H. destruct (add_vertex _ _ _ _ _) as [g1 w] eqn:A in H. inv_bind H. injection H as <-. rewrite SH, (zf_edge _ _ _ _ _ E0). apply (f_equal fst) in A. cbn [fst] in A. rewrite <- A, zf_vertex. rewrite ?zf_power, ?zf_phase. reflexivity.
    + unfold replace_1_1 in H. inv_bind H. destruct (add_vertex _ _ _ _ _) as [g1 w] eqn:A in H. inv_bind H. injection H as <-. rewrite SH, (zf_edge _ _ _ _ _ E0). apply (f_equal fst) in A. cbn [fst] in A. rewrite <- A, zf_vertex. rewrite ?zf_power, ?zf_phase. reflexivity.
Qed.
Local Transparent MAGIC_PHI on_scalar add_vertex add_edge add_edges zf frac qneg1 half mquarter.
Lemma terms_zf : forall c d k vs hs, g_copy false c = Ok d -> zf d = false -> replace_terms c k vs = Ok hs -> forall h, In h hs -> zf h = false.
Proof.
  intros c d k vs hs E Z H. unfold replace_terms in H. rewrite E in H. cbn [bind] in H. assert (ZK := zk_terms k). revert hs H. induction (replace_functions k) as [|f fs IH]; intros hs H; cbn [mapM] in H.
  - injection H as <-. intros h [].
  - inv_bind H. inv_bind H. injection H as <-. intros h [<-|Hh]; [|apply (IH (fun f Hf => ZK f (or_intror Hf)) _ E1 h Hh)].
    inv_bind E0. injection E0 as <-. assert (X := ZK f (or_introl eq_refl) _ _ _ E2). rewrite Z in X. destruct (Nat.eqb k 6); auto. rewrite zf_float; auto. apply magic_nz.
Qed.

(** ** Running it *)
(** the first [k] keys as the random sample, and the zero flag known to be false *)
Definition unz (g : graph) : graph := with_scalar (mkS (power2 (gscalar g)) (sphase (gscalar g)) (phasenodes (gscalar g)) (floatfactor (gscalar g)) (is_unknown (gscalar g)) false) g.
Lemma unz_id : forall g, zf g = false -> unz g = g.
Proof. intros [? ? ? ? ? ? ? ? ? [? ? ? ? ? z]] H. cbn in H. subst z. reflexivity. Qed.
Definition exec_magic (g : graph) : option (list graph) :=
  match g_copy false g with
  | Err _ => None
  | Ok c => match ranking c, g_copy false c with
            | Ok rk, Ok d => if zf d then None else
                       match num_replace rk with
                       | None => None
                       | Some k => match replace_terms c k (firstn k (dkeys rk)) with Ok hs => Some (map unz hs) | Err _ => None end
                       end
            | _, _ => None
            end
  end.
Lemma exec_magic_run : forall g hs, zinv g -> io_ok g -> exec_magic g = Some hs -> replace_magic_states true g (Some (Ok hs)).
Proof.
  intros g hs ZI IO H. unfold exec_magic in H. unfold replace_magic_states. destruct (copy_val g ZI IO) as [c [f [E [_ [_ [_ [_ [_ [ZC _]]]]]]]]]. rewrite E in *.
  destruct (ranking_ok c (zx_wf _ (zi_zx _ ZC))) as [rk [ER KR]]. rewrite ER in *. destruct (g_copy false c) as [d|] eqn:E2; [|discriminate]. destruct (zf d) eqn:Z; [discriminate|].
  destruct (num_replace rk) as [k|] eqn:NK; [|discriminate]. destruct (replace_terms c k (firstn k (dkeys rk))) as [l|] eqn:RT; [|discriminate]. injection H as <-.
  exists (firstn k (dkeys rk)). rewrite RT. split.
  - unfold picked. assert (ND : NoDup (dkeys rk)) by (rewrite KR; apply NoDup_filter, (zx_wf _ (zi_zx _ ZC))). rewrite <- (firstn_skipn k (dkeys rk)) in ND. apply NoDup_app_l in ND. split; auto.
    split; [intros v Hv; rewrite <- (firstn_skipn k (dkeys rk)); apply in_or_app; auto|]. rewrite firstn_length. unfold dkeys. rewrite map_length. unfold num_replace in NK.
    destruct (Nat.leb_spec 6 (length rk)); [injection NK as <-; lia|]. destruct (Nat.leb_spec 2 (length rk)); [injection NK as <-; lia|]. destruct (Nat.eqb_spec (length rk) 1); [injection NK as <-; lia|discriminate].
  - f_equal. f_equal. rewrite <- (map_id l) at 2. apply map_ext_in. intros h Hh. apply unz_id. apply (terms_zf c d k _ l E2 Z RT h Hh).
Qed.
Fixpoint exec_sum (f : nat) (gs : list graph) : option (list graph) :=
  match gs with
  | [] => Some []
  | g :: gs => match exec_rs f g, exec_sum f gs with
               | Some (_, g'), Some ts => Some (if is_zero (gscalar g') then ts else g' :: ts)
               | _, _ => None
               end
  end.
Fixpoint exec_stab (d f : nat) (g : graph) : option (list graph) :=
  match d with
  | O => None
  | S d => match tcount_r g with
           | Err _ => None
           | Ok O => Some [g]
           | Ok (S _) => match exec_magic g with
                         | None => None
                         | Some hs => match exec_sum f hs with
                                      | None => None
                                      | Some ts => (fix go ts := match ts with
                                                                 | [] => Some []
                                                                 | h :: ts => if is_zero (gscalar h) then go ts else match exec_stab d f h, go ts with Some l, Some l' => Some (l ++ l') | _, _ => None end
                                                                 end) ts
                                      end
                         end
           end
  end.
Lemma exec_sum_run : forall f gs ts, exec_sum f gs = Some ts -> sum_reduce reduce_scalar gs (Ok ts).
Proof.
  intros f gs. induction gs as [|g gs IH]; intros ts H; cbn [exec_sum] in H; [injection H as <-; constructor|].
  destruct (exec_rs f g) as [[n g']|] eqn:E; [|discriminate]. destruct (exec_sum f gs) as [l|]; [|discriminate]. injection H as <-. apply exec_rs_run in E. specialize (IH l eq_refl).
  destruct (is_zero (gscalar g')) eqn:Z; [eapply SR_drop; eauto|eapply SR_keep; eauto].
Qed.
Lemma exec_stab_run : forall d f g ts, sdiag g -> exec_stab d f g = Some ts -> find_stab g (Some (Ok ts)).
Proof.
  induction d as [|d IH]; intros f g ts S H; [discriminate|]. cbn [exec_stab] in H. destruct (tcount_r g) as [[|n]|] eqn:T; [injection H as <-; apply FS_zero; auto| |discriminate].
  destruct (exec_magic g) as [hs|] eqn:M; [|discriminate]. destruct (exec_sum f hs) as [ls|] eqn:R; [|discriminate].
  assert (RM := exec_magic_run g hs (proj1 S) (proj1 (proj2 (proj2 S))) M). assert (RS := exec_sum_run f hs ls R).
  eapply FS_go; eauto. destruct (magic_sound true g _ (proj1 S) (proj1 (proj2 (proj2 S))) (sdiag_tz g S) RM) as [[_ E]|[hs' [N [E [L [HH V]]]]]]; [discriminate|]. injection E as <-.
  destruct (sum_reduce_sdiag hs _ (tcount g) RS) as [E|[ts' [E [_ [F _]]]]]; [|discriminate|].
  { apply Forall_forall. intros h Hh. destruct (HH h Hh) as [ZH [IO [_ [_ [K [Q X]]]]]]. split; [|lia]. split; auto. split; [|split; auto; apply Q, S]. intros v Hv E. destruct (X (sdiag_types g S) v Hv); congruence. }
  injection E as <-. clear R RM RS HH V L M. revert ts H. induction F as [|h ls [[Sh _] _] F IF]; intros ts H; [injection H as <-; constructor|].
  destruct (is_zero (gscalar h)) eqn:Z; [apply FL_skip; auto|]. destruct (exec_stab d f h) as [l|] eqn:X; [|discriminate].
  match type of H with match ?e with _ => _ end = _ => destruct e as [l'|] eqn:Y end; [|discriminate]. injection H as <-. apply FL_go; auto. apply (IH f); auto.
Qed.
(** six T spiders between seven Clifford spiders, five T spiders on outputs, one alone *)
Definition ex_twelve : graph := mkgraph
  (map (fun _ => (BOUNDARY, 0%Qc)) (seq 0 12) ++ map (fun _ => (ZSP, 0%Qc)) (seq 0 7) ++ map (fun _ => (ZSP, frac 1 4)) (seq 0 12))
  (map (fun i => (i, i + 12, SIMPLE)) (seq 0 7) ++ map (fun i => (i + 12, i + 19, HADAMARD)) (seq 0 6) ++ map (fun i => (i + 19, i + 13, HADAMARD)) (seq 0 6) ++ map (fun i => (i + 7, i + 25, SIMPLE)) (seq 0 5)) [] (seq 0 12).
Lemma ex_twelve_ok : sdiag ex_twelve.
Proof.
  split; [apply zinvb_ok; vm_compute; reflexivity|]. split; [|split; [apply io_okb_ok; vm_compute; reflexivity|apply allqb_ok; vm_compute; reflexivity]].
  assert (C : forallb (fun v => negb (vtype_eqb (vty ex_twelve v) XSP)) (vertices ex_twelve) = true) by (vm_compute; reflexivity). rewrite forallb_forall in C.
  intros v Hv E. specialize (C v Hv). cbv beta in C. rewrite E in C. exact (diff_false_true C).
Qed.
Theorem max_terms_refuted : exists g ts n, sdiag g /\ find_stab g (Some (Ok ts)) /\ max_terms_needed g = Ok n /\ n < length ts.
Proof.
  assert (X : match exec_stab 6 30 ex_twelve with Some l => length l | None => 0 end = 56) by (vm_compute; reflexivity).
  destruct (exec_stab 6 30 ex_twelve) as [ts|] eqn:E; [|discriminate]. exists ex_twelve, ts, 49. split; [exact ex_twelve_ok|]. split; [apply (exec_stab_run 6 30); [exact ex_twelve_ok|exact E]|].
  split; [vm_compute; reflexivity|lia].
Qed.
(** the bound of find_stab_bound_six is reached *)
Lemma ex_twelve_run : exists ts, find_stab ex_twelve (Some (Ok ts)) /\ length ts = 56 /\ tcount_r ex_twelve = Ok (6 * 2).
Proof.
  assert (X : match exec_stab 6 30 ex_twelve with Some l => length l | None => 0 end = 56) by (vm_compute; reflexivity).
  destruct (exec_stab 6 30 ex_twelve) as [ts|] eqn:E; [|discriminate]. exists ts. split; [apply (exec_stab_run 6 30); [exact ex_twelve_ok|exact E]|]. split; [exact X|vm_compute; reflexivity].
Qed.
(** one spider with a phase that is no multiple of pi/4 *)
Definition ex_eighth : graph := mkgraph [(BOUNDARY, 0%Qc); (ZSP, frac 1 8)] [(0, 1, SIMPLE)] [] [0].
Theorem stab_eighth_refuted : exists g, zinv g /\ (forall v, In v (vertices g) -> vty g v = ZSP \/ vty g v = BOUNDARY) /\ io_ok g /\ find_stab g None.
Proof.
  exists ex_eighth. split; [apply zinvb_ok; vm_compute; reflexivity|]. split; [intros v Hv; vm_compute in Hv; destruct Hv as [<-|[<-|[]]]; vm_compute; auto|]. split; [apply io_okb_ok; vm_compute; reflexivity|].
  eapply FS_none; [vm_compute; reflexivity|]. unfold replace_magic_states.
  assert (X : match g_copy false ex_eighth with Ok c => match ranking c with Ok rk => length rk = 0 | Err _ => False end | Err _ => False end) by (vm_compute; reflexivity).
  destruct (g_copy false ex_eighth) as [c|]; [|destruct X]. destruct (ranking c) as [rk|]; [|destruct X]. unfold num_replace. rewrite X. reflexivity.
Qed.

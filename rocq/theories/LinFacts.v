(** The linear algebra results in terms of their arguments only *)
From Coq Require Import List Bool Arith NArith Lia Permutation.
From Verif Require Import Base LinModel LinProofs LinAlg LinRank LinUse.
Import ListNotations.

(** ** factor *)
Lemma map_row_get : forall r c (m : mat) k, rect r c m -> k <= r -> forall i j, i < k -> get (map (fun i => row m i) (seq 0 k)) i j = get m i j.
Proof. intros r c m k R L i j Hi. unfold get. unfold row at 1. rewrite nth_map_seq by auto. reflexivity. Qed.
Theorem factor_spec : forall h m, wfm m -> exists m0 m1 k h', factor h m = Ok ((m0, m1), h') /\ rank h m = Ok (k, h') /\
  rect (rows m) k m0 /\ rect k (cols m) m1 /\
  forall i j, i < rows m -> j < cols m -> get m i j = xsum (fun t => get m0 i t && get m1 t j) k.
Proof.
  intros h m W. destruct (gauss_any false 6 h m W ltac:(lia)) as [o [own [E [HR [HE [HK [HP _]]]]]]].
  assert (Sm' : shape (rows m) (cols m) (go_mat o)) by (apply (m'_shape m _ (go_ops o)); auto).
  assert (Rgi : rect (rows m) (rows m) (track_y col_add (go_ops o) (mat_id (rows m)))) by (apply track_y_rect, id_shape).
  assert (kr : length own <= rows m) by (apply (rk_le m (go_mat o) (go_ops o) own); auto).
  unfold factor, rank. rewrite E. cbn [bind]. do 4 eexists. split; [reflexivity|]. split; [reflexivity|]. rewrite HK. split; [|split].
  - split; [rewrite map_length; apply Rgi|]. intros x Hx. apply in_map_iff in Hx. destruct Hx as [y [<- _]]. rewrite map_length, seq_length. reflexivity.
  - split; [rewrite map_length, seq_length; reflexivity|]. intros x Hx. apply in_map_iff in Hx. destruct Hx as [y [<- Hy]]. apply in_seq in Hy.
    apply (rect_row (rows m)); [apply Sm'|lia].
  - intros i j Hi Hj. rewrite (m_from m (go_mat o) (go_ops o) own W HR HE i j Hi Hj). apply xsum_ext. intros t Ht.
    rewrite (map_row_get (rows m) (cols m)) by (auto; apply Sm'). f_equal.
    unfold get at 2, row. rewrite (nth_map_in _ _ _ _ i []) by (rewrite (proj1 Rgi); auto).
    rewrite nth_map_seq by auto. reflexivity.
Qed.

(** ** rank *)
Theorem rank_largest : forall h m, wfm m -> exists k h', rank h m = Ok (k, h') /\
  (exists L, NoDup L /\ (forall i, In i L -> i < rows m) /\ indep m L /\ length L = k) /\
  forall L, NoDup L -> (forall i, In i L -> i < rows m) -> indep m L -> length L <= k.
Proof.
  intros h m W. destruct (gauss_any false 6 h m W ltac:(lia)) as [o [own [E [HR [HE [HK [HP _]]]]]]].
  unfold rank. rewrite E. cbn [bind]. do 2 eexists. split; [reflexivity|]. rewrite HK. apply (rank_spec m (go_mat o) (go_ops o) own); auto.
Qed.

(** ** inverse *)
Theorem inverse_spec : forall h m, wfm m -> exists o h', inverse h m = Ok (o, h') /\
  match o with
  | Some N => rows m = cols m /\ rect (rows m) (rows m) N /\ mat_mul N m = mat_id (rows m) /\ mat_mul m N = mat_id (rows m)
  | None => rows m = cols m -> forall N, rect (rows m) (rows m) N -> mat_mul N m <> mat_id (rows m) /\ mat_mul m N <> mat_id (rows m)
  end.
Proof.
  intros h m W. unfold inverse. destruct (Nat.eqb_spec (rows m) (cols m)) as [E|N]; cbn [negb].
  - destruct (gauss_any true 6 h m W ltac:(lia)) as [o [own [G [HR [HE [HK [HP HF]]]]]]]. rewrite G. cbn [bind]. do 2 eexists. split; [reflexivity|].
    rewrite HK. assert (kr : length own <= rows m) by (apply (rk_le m (go_mat o) (go_ops o) own); auto).
    destruct (Nat.ltb_spec (length own) (rows m)).
    + intros _ N RN. apply (inverse_none m (go_mat o) (go_ops o) own); auto.
    + destruct (inverse_some m (go_mat o) (go_ops o) own) as [A [B C]]; auto; lia.
  - do 2 eexists. split; [reflexivity|]. simpl. intros; contradiction.
Qed.

(** ** solve *)
Theorem solve_spec : forall h m b, wfm m -> rect (rows m) 1 b -> exists o h', solve h m b = Ok (o, h') /\
  match o with
  | Some x => rect (cols m) 1 x /\ forall i, i < rows m -> colprod m (fun j => get x j 0) i = get b i 0
  | None => ~ exists x : nat -> bool, forall i, i < rows m -> colprod m x i = get b i 0
  end.
Proof.
  intros h m b W Rb. destruct (gauss_any true 6 h m W ltac:(lia)) as [o [own [G [HR [HE [HK [HP HF]]]]]]]. unfold solve. rewrite G. cbn [bind].
  do 2 eexists. split; [reflexivity|]. destruct (solve_run m (go_mat o) (go_ops o) own W HR HE (HF eq_refl) b Rb) as [[x [-> [A B]]]|[-> A]]; auto.
Qed.

(** ** nullspace *)
Theorem nullspace_spec : forall h m, wfm m -> exists vs h', nullspace h m = Ok (vs, h') /\
  (forall v, In v vs -> length v = cols m /\ forall i, i < rows m -> colprod m (fun j => nth j v false) i = false) /\
  (forall u, (forall j, j < cols m -> comb vs u j = false) -> forall p, p < length vs -> u p = false) /\
  (forall x, (forall i, i < rows m -> colprod m x i = false) -> exists u, forall j, j < cols m -> x j = comb vs u j) /\
  exists k h'', rank h m = Ok (k, h'') /\ length vs + k = cols m.
Proof.
  intros h m W. destruct (gauss_any true 6 h m W ltac:(lia)) as [o [own [G [HR [HE [HK [HP HF0]]]]]]]. assert (HF := HF0 eq_refl). unfold nullspace. rewrite G. cbn [bind].
  rewrite (scan_run m (go_mat o) (go_ops o) own) by auto. cbn [bind fst snd]. do 2 eexists. split; [reflexivity|]. split; [|split; [|split]].
  - intros v Hv. destruct (In_nth _ _ [] Hv) as [p [Hp <-]]. rewrite map_length in Hp. split.
    + apply in_map_iff in Hv || idtac. rewrite (nth_map_in _ _ _ _ p 0) by auto. apply (ns_vec m (go_mat o) (go_ops o) own); auto. apply nth_In. auto.
    + apply (null_kernel m (go_mat o) (go_ops o) own); auto.
  - apply (null_indep m (go_mat o) (go_ops o) own); auto.
  - apply (null_span m (go_mat o) (go_ops o) own); auto.
  - destruct (gauss_any false 6 h m W ltac:(lia)) as [o1 [own1 [G1 [HR1 [HE1 [HK1 [HP1 _]]]]]]]. unfold rank. rewrite G1. cbn [bind]. do 2 eexists. split; [reflexivity|].
    assert (E : length own1 = length own).
    { destruct (rank_spec m _ _ own1 W HR1 HE1) as [[L1 [N1 [B1 [I1 <-]]]] M1]. destruct (rank_spec m _ _ own W HR HE) as [[L [N [B [I <-]]]] M].
      specialize (M L1 N1 B1 I1). specialize (M1 L N B I). lia. }
    rewrite HK1, E. apply (null_count m (go_mat o) (go_ops o) own); auto.
Qed.

(** ** number of row operations *)
Definition cnt (s : gst) : nat := length (snd s).
Lemma cnt_add : forall a b s, cnt (g_add a b s) = S (cnt s).
Proof. intros. unfold cnt, g_add. simpl. rewrite app_length. simpl. lia. Qed.
Lemma cnt_chunk : forall i0 i1 rs st, cnt (fst (fold_left (chunk_step i0 i1) rs st)) <= cnt (fst st) + length rs.
Proof.
  induction rs as [|x rs IH]; intros [s ch]; simpl; [lia|]. eapply Nat.le_trans; [apply IH|].
  destruct (negb _); cbn [fst]; [lia|]. destruct (chunk_find _ _); cbn [fst]; [rewrite cnt_add|]; lia.
Qed.
Lemma cnt_clear : forall piv p rs s, cnt (fold_left (clear_step piv p) rs s) <= cnt s + length rs.
Proof.
  induction rs as [|x rs IH]; intros s; simpl; [lia|]. eapply Nat.le_trans; [apply IH|]. unfold clear_step. destruct (_ && _); [rewrite cnt_add|]; lia.
Qed.
Lemma cnt_up : forall piv p rs s, cnt (fold_left (up_clear piv p) rs s) <= cnt s + length rs.
Proof.
  induction rs as [|x rs IH]; intros s; simpl; [lia|]. eapply Nat.le_trans; [apply IH|]. unfold up_clear. destruct (get _ _ _); [rewrite cnt_add|]; lia.
Qed.
Lemma find_row_lt : forall m p piv nr r0, find_row m p piv nr = Some r0 -> piv < nr.
Proof. intros. unfold find_row in H. apply find_some in H. destruct H as [H _]. apply in_seq in H. lia. Qed.
(** first pass: each column costs at most [nr] operations, and pivots are at most the columns seen *)
Lemma cnt_cols : forall nr ps st, let '(s', piv', pcs') := fold_left (col_step nr) ps st in
  cnt s' <= cnt (fst (fst st)) + length ps * nr /\ snd (fst st) <= piv' <= snd (fst st) + length ps /\ length pcs' + snd (fst st) = length (snd st) + piv' /\ (snd (fst st) <= nr -> piv' <= nr).
Proof.
  induction ps as [|p ps IH]; intros [[s piv] pcs]; cbn [fold_left length]; [cbn [fst snd]; lia|].
  specialize (IH (col_step nr (s, piv, pcs) p)). destruct (fold_left (col_step nr) ps (col_step nr (s, piv, pcs) p)) as [[s' piv'] pcs'].
  unfold col_step in IH. destruct (find_row (fst s) p piv nr) as [r0|] eqn:F; cbn [fst snd] in *; [|lia].
  apply find_row_lt in F. rewrite app_length in IH. cbn [length] in IH.
  assert (A := cnt_clear piv p (seq (piv + 1) (nr - (piv + 1))) (if Nat.eqb r0 piv then s else g_add r0 piv s)). rewrite seq_length in A.
  assert (B : cnt (if Nat.eqb r0 piv then s else g_add r0 piv s) <= S (cnt s)) by (destruct (Nat.eqb r0 piv); [|rewrite cnt_add]; lia). lia.
Qed.
Lemma sec_width : forall nc bs sec, Nat.min nc ((sec + 1) * bs) - sec * bs <= bs.
Proof. intros. lia. Qed.
Lemma cnt_secs : forall nr nc bs n a st, snd (fst st) <= nr -> let '(s', piv', pcs') := fold_left (sec_step nr nc bs) (seq a n) st in
  cnt s' + Nat.min nc (a * bs) * nr <= cnt (fst (fst st)) + n * nr + Nat.min nc ((a + n) * bs) * nr /\
  piv' + Nat.min nc (a * bs) <= snd (fst st) + Nat.min nc ((a + n) * bs) /\ snd (fst st) <= piv' <= nr /\ length pcs' + snd (fst st) = length (snd st) + piv'.
Proof.
  induction n as [|n IH]; intros a [[s piv] pcs] P; cbn [seq fold_left]; [cbn [fst snd] in *; rewrite Nat.add_0_r; lia|].
  cbn [fst snd] in P.
  assert (C := cnt_cols nr (seq (a * bs) (Nat.min nc ((a + 1) * bs) - a * bs)) (chunk_phase (a * bs) (Nat.min nc ((a + 1) * bs)) (seq piv (nr - piv)) s, piv, pcs)).
  specialize (IH (S a) (sec_step nr nc bs (s, piv, pcs) a)).
  destruct (fold_left (sec_step nr nc bs) (seq (S a) n) (sec_step nr nc bs (s, piv, pcs) a)) as [[s' piv'] pcs'].
  unfold sec_step in IH.
  destruct (fold_left (col_step nr) (seq (a * bs) (Nat.min nc ((a + 1) * bs) - a * bs)) (chunk_phase (a * bs) (Nat.min nc ((a + 1) * bs)) (seq piv (nr - piv)) s, piv, pcs)) as [[s1 piv1] pcs1].
  cbn [fst snd] in *. rewrite seq_length in C. assert (K := cnt_chunk (a * bs) (Nat.min nc ((a + 1) * bs)) (seq piv (nr - piv)) (s, [])). cbn [fst] in K. rewrite seq_length in K.
  unfold chunk_phase in C. replace (S a + n) with (a + S n) in IH by lia. replace (a + 1) with (S a) in C, K by lia.
  assert (SB : S a * bs = bs + a * bs) by reflexivity.
  assert (M : Nat.min nc (a * bs) <= Nat.min nc (S a * bs)) by (rewrite SB; lia). assert (D : Nat.min nc (S a * bs) - a * bs = Nat.min nc (S a * bs) - Nat.min nc (a * bs)) by (rewrite SB; lia).
  rewrite D in C. set (X := Nat.min nc (a * bs)) in *. set (Y := Nat.min nc (S a * bs)) in *. set (Z := Nat.min nc ((a + S n) * bs)) in *.
  assert (E : (Y - X) * nr + X * nr = Y * nr) by (rewrite <- Nat.mul_add_distr_r; f_equal; lia).
  destruct C as [C1 [C2 [C3 C4]]]. specialize (C4 P). specialize (IH C4). destruct IH as [I1 [I2 [I3 I4]]].
  split; [|split; [|split]]; lia.
Qed.
(** second pass: one popped pivot costs at most [nr] *)
Lemma cnt_pop : forall nr i0 i1 stack piv1 s, piv1 <= nr -> let '(st', piv', s') := pop_loop i0 i1 stack piv1 s in
  cnt s' + length st' * nr <= cnt s + length stack * nr /\ piv' <= nr.
Proof.
  induction stack as [|pc stack IH]; intros piv1 s P; [simpl; lia|]. cbn [pop_loop]. destruct (_ && _); [|cbn [length]; lia].
  specialize (IH (piv1 - 1) (match piv1 with O => s | S piv => fold_left (up_clear piv pc) (seq 0 piv) s end) ltac:(lia)).
  destruct (pop_loop _ _ _ _ _) as [[st' piv'] s']. cbn [length Nat.mul]. destruct IH as [I1 I2]. split; auto.
  enough (cnt (match piv1 with O => s | S piv => fold_left (up_clear piv pc) (seq 0 piv) s end) <= cnt s + nr) by lia.
  destruct piv1 as [|piv]; [lia|]. eapply Nat.le_trans; [apply cnt_up|]. rewrite seq_length. lia.
Qed.
Lemma cnt_ups : forall nr nc bs l st, snd (fst st) <= nr -> let '(s', piv', st') := fold_left (up_sec nc bs) l st in
  cnt s' + length st' * nr <= cnt (fst (fst st)) + length l * nr + length (snd st) * nr.
Proof.
  induction l as [|x l IH]; intros [[s piv1] stack] P; cbn [fold_left length fst snd] in *; [lia|].
  specialize (IH (up_sec nc bs (s, piv1, stack) x)).
  assert (K := cnt_pop nr (x * bs) (Nat.min nc ((x + 1) * bs)) stack piv1 (chunk_phase (x * bs) (Nat.min nc ((x + 1) * bs)) (rev (seq 0 piv1)) s) P).
  assert (C := cnt_chunk (x * bs) (Nat.min nc ((x + 1) * bs)) (rev (seq 0 piv1)) (s, [])). rewrite rev_length, seq_length in C. cbn [fst] in C.
  unfold chunk_phase in K at 2.
  destruct (fold_left (up_sec nc bs) l (up_sec nc bs (s, piv1, stack) x)) as [[s' piv'] st']. unfold up_sec in IH. unfold chunk_phase in *.
  destruct (pop_loop _ _ _ _ _) as [[st1 piv2] s1]. cbn [fst snd] in IH. destruct K as [K1 K2]. specialize (IH K2). lia.
Qed.
Lemma nsec_le : forall nc bs, bs <> 0 -> nsec nc bs <= nc.
Proof.
  intros nc bs H. unfold nsec. destruct nc as [|nc]; [rewrite Nat.div_small; lia|]. transitivity ((S nc * bs) / bs); [|rewrite Nat.div_mul; lia].
  apply Nat.div_le_mono; auto. destruct bs; [lia|]. nia.
Qed.
Lemma gauss_count0 : forall full bs m o, gauss full bs [] m = Ok o -> length (go_ops o) <= 4 * rows m * cols m.
Proof.
  intros full bs m o E. destruct bs as [|bs']; [discriminate|]. assert (N := nsec_le (cols m) (S bs') ltac:(lia)). unfold gauss in E.
  assert (C := cnt_secs (rows m) (cols m) (S bs') (nsec (cols m) (S bs')) 0 (gauss_start [] m) ltac:(simpl; lia)).
  destruct (fold_left (sec_step (rows m) (cols m) (S bs')) (seq 0 (nsec (cols m) (S bs'))) (gauss_start [] m)) as [[s piv] pcs].
  unfold gauss_start in C. cbn [fst snd] in C. assert (Cs : cnt (m, []) = 0) by reflexivity. rewrite Cs in C. change (0 * S bs') with 0 in C. rewrite Nat.min_0_r in C.
  cbn [length] in C. rewrite Nat.add_0_l, Nat.add_0_r in C. destruct C as [C1 [C2 [C3 C4]]].
  set (Z := Nat.min (cols m) (nsec (cols m) (S bs') * S bs')) in *. assert (HZ : Z <= cols m) by (unfold Z; lia).
  set (q := nsec (cols m) (S bs')) in *. set (r := rows m) in *. set (c := cols m) in *.
  assert (A1 : q * r <= c * r) by (apply Nat.mul_le_mono_r; auto). assert (A2 : Z * r <= c * r) by (apply Nat.mul_le_mono_r; auto).
  destruct full.
  - assert (U := cnt_ups r c (S bs') (rev (seq 0 q)) (s, piv, rev pcs) ltac:(cbn [fst snd]; lia)).
    destruct (fold_left (up_sec c (S bs')) (rev (seq 0 q)) (s, piv, rev pcs)) as [[s' piv'] st']. cbn [fst snd] in *. inversion E; subst o. simpl go_ops.
    fold (cnt s'). rewrite !rev_length, seq_length in U. assert (A3 : length pcs * r <= c * r) by (apply Nat.mul_le_mono_r; lia). nia.
  - inversion E; subst o. simpl go_ops. fold (cnt s). nia.
Qed.
Lemma gauss_count : forall full bs h m o, wfm m -> gauss full bs h m = Ok o -> length (go_ops o) <= 4 * rows m * cols m.
Proof.
  intros full bs h m o W E. destruct bs as [|bs']; [discriminate|]. destruct (gauss_ok full (S bs') m W ltac:(lia)) as [o' [E' _]].
  rewrite (gauss_history _ _ h _ _ E') in E. inversion E; subst. simpl. eapply gauss_count0; eauto.
Qed.

(** ** to_cnots *)
(** replaying CNOTs as extract.py 452-460 does: m.row_add(cnot.target, cnot.control) *)
Definition replay (cn : list (nat * nat)) (m : mat) : mat := fold_left (fun m ct => row_add (snd ct) (fst ct) m) cn m.
Lemma replay_ops : forall ops m, replay (map cnot_of ops) m = track_x row_add ops m.
Proof. induction ops as [|[a b] ops IH]; intros m; auto. simpl. apply IH. Qed.
Definition invertible (m : mat) : Prop := rows m = cols m /\ exists N, rect (rows m) (rows m) N /\ mat_mul m N = mat_id (rows m).
Definition good_cnots (m : mat) (cn : list (nat * nat)) : Prop :=
  replay cn m = mat_id (rows m) /\ forall ct, In ct cn -> fst ct < rows m /\ snd ct < rows m /\ fst ct <> snd ct.
Lemma gauss_cnots : forall bs h m, wfm m -> invertible m -> bs <> 0 -> exists o, gauss true bs h m = Ok o /\ good_cnots m (map cnot_of (go_ops o)).
Proof.
  intros bs h m W [SQ [N [RN IN]]] Hb. destruct (gauss_any true bs h m W Hb) as [o [own [G [HR [HE [HK [HP HF]]]]]]]. exists o. split; auto.
  assert (kr : length own <= rows m) by (apply (rk_le m (go_mat o) (go_ops o) own); auto).
  assert (KN : length own = rows m).
  { destruct (Nat.lt_ge_cases (length own) (rows m)) as [L|L]; [|lia]. destruct (inverse_none m (go_mat o) (go_ops o) own W HR HE SQ L N RN). contradiction. }
  assert (EI : go_mat o = mat_id (rows m)) by (apply (full_id m (go_mat o) (go_ops o) own); auto). split.
  - rewrite replay_ops, <- EI. symmetry. apply HR.
  - intros ct Hc. apply in_map_iff in Hc. destruct Hc as [ab [<- Hab]]. assert (F : Forall (opok (rows m)) (go_ops o)) by apply HR.
    rewrite Forall_forall in F. destruct (F ab Hab) as [A [B C]]. simpl. auto.
Qed.
(** one fixed block size *)
Theorem to_cnots_plain : forall logbs h m, wfm m -> invertible m -> (logbs = true -> 2 <= rows m) ->
  exists cn h', to_cnots false logbs h m = Ok (cn, h') /\ good_cnots m cn.
Proof.
  intros logbs h m W I L. unfold to_cnots. cbn [negb].
  assert (B : exists bs, (if logbs then match rows m with O => Err ValueError | n => Ok (Nat.log2 n) end else Ok 5) = Ok bs /\ bs <> 0).
  { destruct logbs; [|exists 5; auto]. specialize (L eq_refl). destruct (rows m) as [|n] eqn:En; [lia|]. exists (Nat.log2 (S n)). split; auto.
    assert (X := Nat.log2_pos (S n) ltac:(lia)). lia. }
  destruct B as [bs [-> Hb]]. cbn [bind]. destruct (gauss_cnots bs h m W I Hb) as [o [-> G]]. cbn [bind]. eauto.
Qed.
Definition best_ok (m : mat) (bc : option (list (nat * nat))) : Prop := match bc with Some cn => good_cnots m cn | None => True end.
Lemma best_fold : forall m, wfm m -> invertible m -> forall n a best bc h, 0 < a -> best_ok m bc -> exists best' bc' h',
  foldM (best_cnots m) (seq a n) ((best, bc), h) = Ok ((best', bc'), h') /\ best_ok m bc' /\
  (bc <> None \/ (0 < n /\ (N.of_nat (4 * rows m * cols m) < best)%N) -> bc' <> None).
Proof.
  intros m W I. induction n as [|n IH]; intros a best bc h Ha Hb.
  - simpl. exists best, bc, h. repeat split; auto. intros [X|[X _]]; auto. lia.
  - cbn [seq foldM]. unfold best_cnots at 1. destruct (gauss_cnots a h m W I ltac:(lia)) as [o [E G]]. rewrite E. cbn [bind].
    assert (C := gauss_count _ _ _ _ _ W E).
    destruct (N.ltb_spec (N.of_nat (length (map cnot_of (go_ops o)))) best) as [Lt|Ge].
    + destruct (IH (S a) (N.of_nat (length (map cnot_of (go_ops o)))) (Some (map cnot_of (go_ops o))) (go_pcs o) ltac:(lia) G) as [b' [bc' [h' [A [B D]]]]].
      exists b', bc', h'. split; auto. split; auto. intros _. apply D. left. discriminate.
    + destruct (IH (S a) best bc (go_pcs o) ltac:(lia) Hb) as [b' [bc' [h' [A [B D]]]]]. exists b', bc', h'. split; auto. split; auto.
      intros [X|[X Y]]; [apply D; auto|]. rewrite map_length in Ge. lia.
Qed.
(** the search over block sizes: whatever it returns is right, and it returns
    whenever some block size needs fewer than a million CNOTs, in particular
    for 2 up to 499 rows *)
Theorem to_cnots_opt : forall logbs h m, wfm m -> invertible m ->
  (forall cn h', to_cnots true logbs h m = Ok (cn, h') -> good_cnots m cn) /\
  (2 <= rows m <= 499 -> exists cn h', to_cnots true logbs h m = Ok (cn, h')).
Proof.
  intros logbs h m W I. unfold to_cnots. cbn [negb].
  destruct (best_fold m W I (rows m - 1) 1 1000000%N None h ltac:(lia) Logic.I) as [b' [bc' [h' [A [B D]]]]]. rewrite A. cbn [bind fst snd]. split.
  - intros cn h0 E. destruct bc'; inversion E; subst. exact B.
  - intros Hr. destruct bc' as [cn|]; eauto. exfalso. apply D; auto. right. split; [lia|]. rewrite <- (proj1 I). nia.
Qed.
Theorem to_cnots_log_1 : forall h m, rows m = 1 -> to_cnots false true h m = Err ZeroDivisionError.
Proof. intros h m E. unfold to_cnots. rewrite E. reflexivity. Qed.
Theorem to_cnots_opt_1 : forall logbs h m, rows m <= 1 -> to_cnots true logbs h m = Err AssertionError.
Proof. intros logbs h m E. unfold to_cnots. replace (rows m - 1) with 0 by lia. reflexivity. Qed.

(** ** independence of the history *)
Lemma gauss_hist2 : forall full bs h1 h2 m, wfm m ->
  match gauss full bs h1 m, gauss full bs h2 m with
  | Ok a, Ok b => go_mat a = go_mat b /\ go_ops a = go_ops b /\ go_rank a = go_rank b /\ exists p, go_pcs a = h1 ++ p /\ go_pcs b = h2 ++ p
  | Err a, Err b => a = b
  | _, _ => False
  end.
Proof.
  intros full bs h1 h2 m W. destruct bs as [|bs]; [reflexivity|]. destruct (gauss_ok full (S bs) m W ltac:(lia)) as [o [E _]].
  rewrite (gauss_history _ _ h1 _ _ E), (gauss_history _ _ h2 _ _ E). simpl. eauto 8.
Qed.
(** a result and a final content of the shared list *)
Definition val {A} (r : res (A * list nat)) : res A := match r with Ok (a, _) => Ok a | Err e => Err e end.
Lemma gauss_total : forall full bs m, bs <> 0 -> exists o, gauss full bs [] m = Ok o.
Proof. intros full [|bs] m H; [congruence|]. unfold gauss. destruct (fold_left _ _ _) as [[s piv] pcs]. eauto. Qed.
Ltac hist2 full bs h1 h2 m := let o := fresh in let E := fresh in destruct (gauss_total full bs m ltac:(lia)) as [o E];
  rewrite (gauss_history full bs h1 m o E), (gauss_history full bs h2 m o E); cbn [bind go_mat go_ops go_rank].
Theorem gauss_indep : forall full bs h1 h2 m, match gauss full bs h1 m, gauss full bs h2 m with
  | Ok a, Ok b => go_mat a = go_mat b /\ go_ops a = go_ops b /\ go_rank a = go_rank b
  | Err a, Err b => a = b
  | _, _ => False end.
Proof. intros full [|bs] h1 h2 m; [reflexivity|]. hist2 full (S bs) h1 h2 m. auto. Qed.
Theorem rank_indep : forall h1 h2 m, val (rank h1 m) = val (rank h2 m).
Proof. intros. unfold rank. hist2 false 6 h1 h2 m. reflexivity. Qed.
Theorem factor_indep : forall h1 h2 m, val (factor h1 m) = val (factor h2 m).
Proof. intros. unfold factor. hist2 false 6 h1 h2 m. reflexivity. Qed.
Theorem inverse_indep : forall h1 h2 m, val (inverse h1 m) = val (inverse h2 m).
Proof. intros. unfold inverse. destruct (negb _); [reflexivity|]. hist2 true 6 h1 h2 m. reflexivity. Qed.
Theorem solve_indep : forall h1 h2 m b, val (solve h1 m b) = val (solve h2 m b).
Proof. intros. unfold solve. hist2 true 6 h1 h2 m. reflexivity. Qed.
Theorem nullspace_indep : forall h1 h2 m, val (nullspace h1 m) = val (nullspace h2 m).
Proof. intros. unfold nullspace. hist2 true 6 h1 h2 m. destruct (ns_scan _ _); reflexivity. Qed.
Lemma best_indep : forall m l st h1 h2, ~ In 0 l -> val (foldM (best_cnots m) l (st, h1)) = val (foldM (best_cnots m) l (st, h2)).
Proof.
  induction l as [|x l IH]; intros [best bc] h1 h2 N; [reflexivity|]. cbn [foldM]. unfold best_cnots at 1 3.
  assert (Hx : x <> 0) by (intros ->; apply N; left; auto). destruct (gauss_total true x m Hx) as [o E].
  rewrite (gauss_history true x h1 m o E), (gauss_history true x h2 m o E). cbn [bind go_mat go_ops go_rank]. apply IH. intros X. apply N. right. auto.
Qed.
Theorem to_cnots_indep : forall op lb h1 h2 m, val (to_cnots op lb h1 m) = val (to_cnots op lb h2 m).
Proof.
  intros op lb h1 h2 m. unfold to_cnots. destruct op; cbn [negb].
  - assert (X := best_indep m (seq 1 (rows m - 1)) (1000000%N, None) h1 h2). rewrite in_seq in X. specialize (X ltac:(lia)).
    destruct (foldM (best_cnots m) (seq 1 (rows m - 1)) (1000000%N, None, h1)) as [[st1 k1]|e1], (foldM (best_cnots m) (seq 1 (rows m - 1)) (1000000%N, None, h2)) as [[st2 k2]|e2];
      cbn [bind val fst snd] in *; try congruence. inversion X; subst. destruct (snd st2); reflexivity.
  - destruct (if lb then _ else _) as [bs|e]; cbn [bind]; [|reflexivity]. destruct bs as [|bs]; [reflexivity|]. hist2 true (S bs) h1 h2 m. reflexivity.
Qed.

(** ** gauss *)
(** row echelon form with pivot columns [pcs]: strictly increasing columns, the
    first one of row [i] in column [pcs[i]], and no other non-zero row *)
Definition echelon (m : mat) (pcs : list nat) : Prop :=
  (forall i j, i < j -> j < length pcs -> nth i pcs 0 < nth j pcs 0) /\
  (forall i, i < length pcs -> nth i pcs 0 < cols m /\ get m i (nth i pcs 0) = true /\ forall j, j < nth i pcs 0 -> get m i j = false) /\
  (forall i j, length pcs <= i -> get m i j = false).
(** reduced: the pivot columns have no other one *)
Definition reduced (m : mat) (pcs : list nat) : Prop := forall i i', i < length pcs -> i' <> i -> get m i' (nth i pcs 0) = false.
Lemma track_y_gi : forall n r ops Y, rect n r Y -> Forall (opok r) ops -> track_y col_add ops Y = mat_mul Y (track_y col_add ops (mat_id r)).
Proof.
  intros n r ops Y RY F. assert (I := id_shape r).
  assert (Rgi : rect r r (track_y col_add ops (mat_id r))) by (apply track_y_rect; apply I).
  assert (E : track_y col_add ops (mat_id r) = track_x row_add (rev ops) (mat_id r)).
  { rewrite <- (mul_id r r _ Rgi). rewrite (track_y_mul r r r) by (auto; apply I). apply (id_mul r r). apply track_shape; auto. apply Forall_rev'; auto. }
  rewrite E. rewrite <- (track_y_mul n r r) by auto. symmetry. apply (mul_id n r). apply track_y_rect. auto.
Qed.
Theorem gauss_spec : forall full bs h m, wfm m -> bs <> 0 -> exists o pcs, gauss full bs h m = Ok o /\
  shape (rows m) (cols m) (go_mat o) /\ echelon (go_mat o) pcs /\ (full = true -> reduced (go_mat o) pcs) /\
  go_rank o = length pcs /\ go_pcs o = h ++ pcs /\
  (forall ab, In ab (go_ops o) -> fst ab < rows m /\ snd ab < rows m /\ fst ab <> snd ab) /\
  go_mat o = track_x row_add (go_ops o) m /\
  exists G Gi, rect (rows m) (rows m) G /\ rect (rows m) (rows m) Gi /\
    mat_mul G Gi = mat_id (rows m) /\ mat_mul Gi G = mat_id (rows m) /\
    go_mat o = mat_mul G m /\ m = mat_mul Gi (go_mat o) /\
    (forall k x, shape (rows m) k x -> track_x row_add (go_ops o) x = mat_mul G x) /\
    (forall k y, rect k (rows m) y -> track_y col_add (go_ops o) y = mat_mul y Gi).
Proof.
  intros full bs h m W Hb. destruct (gauss_any full bs h m W Hb) as [o [own [E [HR [HE [HK [HP HF]]]]]]].
  assert (Fo : Forall (opok (rows m)) (go_ops o)) by apply HR. assert (Sm := wfm_shape m W).
  assert (Sm' : shape (rows m) (cols m) (go_mat o)) by (apply (m'_shape m _ (go_ops o)); auto).
  assert (EM : go_mat o = track_x row_add (go_ops o) m) by apply HR.
  exists o, own. split; auto. split; auto. split; [|split; [|split; [|split; [|split; [|split]]]]]; auto.
  - split; [exact (e_inc _ _ _ HE)|]. split.
    + intros i Hi. rewrite (proj2 Sm'). split; [apply (e_lt _ _ _ HE); auto|]. split; [apply (e_one _ _ _ HE); auto|]. intros j Hj. apply (e_zero _ _ _ HE); auto.
    + intros i j Hi. destruct (Nat.lt_ge_cases j (cols m)) as [L|L]; [apply (e_rest _ _ _ HE); auto|apply (get_out_c (rows m) (cols m)); auto; apply Sm'].
  - intros ab Hab. rewrite Forall_forall in Fo. apply Fo. auto.
  - destruct (ops_inverse (rows m) (go_ops o) Fo) as [A B].
    exists (track_x row_add (go_ops o) (mat_id (rows m))), (track_y col_add (go_ops o) (mat_id (rows m))).
    split; [apply track_rect; auto; apply id_shape|]. split; [apply track_y_rect; apply id_shape|]. split; auto. split; auto. split; [|split; [|split]].
    + rewrite EM. apply (ops_apply (rows m) (cols m)); auto.
    + rewrite EM. symmetry. apply (ops_undo (rows m) (cols m)); auto.
    + intros k x Sx. apply (ops_apply (rows m) k); auto.
    + intros k y Ry. apply (track_y_gi k); auto.
Qed.

Theorem to_cnots_refuted : exists m, wfm m /\ invertible m /\
  (forall h, to_cnots false true h m = Err ZeroDivisionError) /\ (forall logbs h, to_cnots true logbs h m = Err AssertionError).
Proof.
  exists [[true]]. assert (R : rect 1 1 [[true]]) by (split; auto; intros x [<-|[]]; reflexivity). split; [exact R|]. split.
  - split; auto. exists [[true]]. split; auto.
  - split; intros; [apply to_cnots_log_1|apply to_cnots_opt_1]; auto.
Qed.

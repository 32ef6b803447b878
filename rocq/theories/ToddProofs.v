(** Proofs about ToddModel: todd_simp keeps the map and does not add T gates. *)
From Coq Require Import ZArith QArith Qcanon List Bool Arith Lia Permutation FunctionalExtensionality.
From Verif Require Import CNum Base ScalarModel ScalarProofs LinModel LinProofs LinAlg LinFacts GateModel ToddModel ToddSig ToddPoly ToddNet ToddSem.
From Verif Require Import GraphSem CircSpec.
Import ListNotations.
Open Scope nat_scope.

(** ** Columns of weight one *)
Lemma nones_0 : forall c, nones c = 0 -> forall k, nth k c false = false.
Proof. unfold nones. induction c as [|b c IH]; intros H k; [destruct k; reflexivity|]. cbn [filter] in H. destruct b; [discriminate|]. destruct k; auto. apply IH, H. Qed.
Lemma nones_1 : forall c, nones c = 1 -> exists i, i < length c /\ forall k, nth k c false = Nat.eqb k i.
Proof.
  unfold nones. induction c as [|b c IH]; intros H; [discriminate|]. cbn [filter] in H. destruct b.
  - exists 0. split; [simpl; lia|]. intros [|k]; auto. cbn [nth Nat.eqb]. apply nones_0. simpl in H. unfold nones. lia.
  - destruct (IH H) as [i [Hi E]]. exists (S i). split; [simpl; lia|]. intros [|k]; auto. cbn [nth Nat.eqb]. apply E.
Qed.
Definition w1 (cs : list (list bool)) : list (list bool) := filter (fun c => Nat.eqb (nones c) 1) cs.
Definition wn (cs : list (list bool)) : list (list bool) := filter (fun c => negb (Nat.eqb (nones c) 1)) cs.
Lemma phs_split : forall cs x, (phs (w1 cs) x + phs (wn cs) x)%Z = phs cs x.
Proof. intros cs x. unfold w1, wn. induction cs as [|c cs IH]; auto. cbn [filter phs]. destruct (Nat.eqb (nones c) 1); cbn [negb phs]; lia. Qed.
Lemma len_split : forall cs, length (w1 cs) + length (wn cs) = length cs.
Proof. intros cs. unfold w1, wn. induction cs as [|c cs IH]; auto. cbn [filter]. destruct (Nat.eqb (nones c) 1); cbn [negb length]; lia. Qed.
Lemma tg_todd : forall n i, i < n -> todd_gate n (Tg i false).
Proof. intros n i H. split; auto. exists 1%Z. reflexivity. Qed.
Lemma step_tg : forall i k x, step (Tg i false) (k, x) = ((k + b2z (x i))%Z, x).
Proof. intros i k x. unfold Tg. cbn [step]. rewrite qtrunc_frac. f_equal. lia. Qed.
Lemma tcnt_tg : forall i, tcnt [Tg i false] = 1. Proof. reflexivity. Qed.
Lemma split_loop : forall n cs gs ps, colsok n cs -> exists g2,
  foldM (fun st col => if Nat.eqb (nones col) 1 then match find (fun i => nth i col false) (seq 0 n) with Some i => Ok (fst st ++ [Tg i false], snd st) | None => Err StopIteration end else Ok (fst st, snd st ++ [col])) cs (gs, ps) =
    Ok (gs ++ g2, ps ++ wn cs) /\ Forall (todd_gate n) g2 /\ tcnt g2 = length (w1 cs) /\ forall k x, fwd g2 (k, x) = ((k + phs (w1 cs) x)%Z, x).
Proof.
  intros n. induction cs as [|c cs IH]; intros gs ps OK.
  - exists []. rewrite !app_nil_r. split; [reflexivity|]. split; [constructor|]. split; auto. intros k x. cbn. rewrite Z.add_0_r. reflexivity.
  - cbn [foldM]. assert (OK' : colsok n cs) by (intros d Hd; apply OK; right; exact Hd). unfold w1, wn. cbn [filter fst snd]. destruct (Nat.eqb_spec (nones c) 1) as [N1|N1]; cbn [negb].
    + destruct (nones_1 c N1) as [i [Hi E]]. rewrite (OK c (or_introl eq_refl)) in Hi.
      assert (FI : find (fun i => nth i c false) (seq 0 n) = Some i).
      { destruct (find (fun i => nth i c false) (seq 0 n)) as [j|] eqn:F.
        - apply find_some in F. destruct F as [_ F]. rewrite E in F. apply Nat.eqb_eq in F. congruence.
        - assert (X := find_none _ _ F i ltac:(apply in_seq; lia)). cbn beta in X. rewrite E, Nat.eqb_refl in X. discriminate. }
      rewrite FI. cbn [bind]. destruct (IH (gs ++ [Tg i false]) ps OK') as [g2 [A [B [D F]]]]. exists (Tg i false :: g2). rewrite A, <- app_assoc. split; [reflexivity|].
      split; [constructor; [apply tg_todd, Hi|exact B]|]. split.
      * change (Tg i false :: g2) with ([Tg i false] ++ g2). rewrite tcnt_app, tcnt_tg, D. reflexivity.
      * intros k x. cbn [fwd fold_left]. rewrite step_tg. change (fold_left _ g2 ?z) with (fwd g2 z). rewrite F. cbn [phs]. f_equal.
        assert (PL : parl c x = x i). { unfold parl. rewrite (OK c (or_introl eq_refl)), (xsum_one _ n i Hi); [rewrite E, Nat.eqb_refl; reflexivity|]. intros t _ Nt. rewrite E. destruct (Nat.eqb_spec t i); [contradiction|reflexivity]. }
        rewrite PL. unfold w1. lia.
    + cbn [bind]. destruct (IH gs (ps ++ [c]) OK') as [g2 [A [B [D F]]]]. exists g2. rewrite A, <- app_assoc. auto.
Qed.

(** ** The Clifford correction *)
Lemma frac_12 : frac 1 2 = frac 2 4. Proof. apply Qc_is_canon. reflexivity. Qed.
Lemma frac_m12 : frac (-1) 2 = frac (-2) 4. Proof. apply Qc_is_canon. reflexivity. Qed.
Lemma frac_44 : 1%Qc = frac 4 4. Proof. apply Qc_is_canon. reflexivity. Qed.
Lemma cl_one : forall n g, cl_gate g -> gate_below n g -> todd_gate n g /\ tcnt [g] = 0 /\ forall k x, step g (k, x) = ((k + cl_phase x g)%Z, x).
Proof.
  intros n g C B. destruct g as [[| |[]|a] t p|k t p|k t p|t|c t|c t| | | | | | | | | | | | | | | | | | | | ]; try contradiction; cbn [cl_gate] in C; cbn [gate_below] in B.
  - subst p. rewrite frac_44. split; [split; eauto|]. split; [reflexivity|]. intros k x. cbn [step cl_phase]. rewrite qtrunc_frac. reflexivity.
  - subst p. rewrite frac_m12. split; [split; eauto|]. split; [reflexivity|]. intros k x. cbn [step cl_phase]. rewrite qtrunc_frac. reflexivity.
  - subst p. rewrite frac_12. split; [split; eauto|]. split; [reflexivity|]. intros k x. cbn [step cl_phase]. rewrite qtrunc_frac. reflexivity.
  - split; [destruct B; split; auto|]. split; [reflexivity|]. intros k x. reflexivity.
Qed.
Lemma cl_all : forall n gs, Forall cl_gate gs -> Forall (gate_below n) gs -> Forall (todd_gate n) gs /\ tcnt gs = 0 /\ forall k x, fwd gs (k, x) = ((k + cl_sum x gs)%Z, x).
Proof.
  intros n. induction gs as [|g gs IH]; intros C B.
  - split; [constructor|]. split; auto. intros k x. cbn. rewrite Z.add_0_r. reflexivity.
  - inversion C; subst. inversion B; subst. destruct (cl_one n g) as [T [Z S1]]; auto. destruct IH as [A [D E]]; auto. split; [constructor; auto|]. split.
    + change (g :: gs) with ([g] ++ gs). rewrite tcnt_app. lia.
    + intros k x. cbn [fwd fold_left]. rewrite S1. change (fold_left _ gs ?z) with (fwd gs z). rewrite E. f_equal. unfold cl_sum. cbn [fold_right]. lia.
Qed.

(** ** Placing the T gates *)
Lemma inb_in : forall p l, inb p l = true <-> In p l.
Proof.
  intros p l. unfold inb. rewrite existsb_exists. split.
  - intros [d [H E]]. apply beql_eq in E. subst. exact H.
  - intros H. exists p. split; auto. apply beql_refl.
Qed.
Lemma index_of_ok : forall p l, In p l -> index_of p l < length l /\ nth (index_of p l) l [] = p.
Proof.
  intros p. induction l as [|d l IH]; intros H; [destruct H|]. cbn [index_of length]. destruct (beql p d) eqn:E.
  - apply beql_eq in E. subst. split; [lia|reflexivity].
  - destruct H as [->|H]; [rewrite beql_refl in E; discriminate|]. destruct (IH H) as [A B]. split; [lia|exact B].
Qed.
Lemma rm_first_ok : forall p l, In p l -> NoDup l -> NoDup (rm_first p l) /\ (forall q, In q (rm_first p l) <-> In q l /\ q <> p) /\ S (length (rm_first p l)) = length l /\
  forall x, (b2z (parl p x) + phs (rm_first p l) x)%Z = phs l x.
Proof.
  intros p. induction l as [|d l IH]; intros H N; [destruct H|]. inversion N as [|? ? N1 N2]; subst. cbn [rm_first]. destruct (beql p d) eqn:E.
  - apply beql_eq in E. subst. split; auto. split; [|split; auto]. intros q. split; [intros Q; split; [right; exact Q|intros ->; contradiction]|intros [[X|X] Y]; [congruence|exact X]].
  - assert (Ne : p <> d) by (intros ->; rewrite beql_refl in E; discriminate). destruct H as [->|H]; [congruence|]. destruct (IH H N2) as [A [B [D F]]]. split; [|split; [|split]].
    + constructor; auto. intros X. apply B in X. apply N1, X.
    + intros q. split.
      * intros [->|X]; [split; [left; reflexivity|congruence]|]. apply B in X. split; [right|]; apply X.
      * intros [[->|X] Y]; [left; reflexivity|right; apply B; auto].
    + cbn [length]. lia.
    + intros x. cbn [phs]. specialize (F x). lia.
Qed.
Lemma in_row_add : forall n m c t q, rect n n m -> t < n -> In q (row_add c t m) -> In q m \/ q = LinModel.row (row_add c t m) t.
Proof.
  intros n m c t q R H I. destruct (In_nth _ _ [] I) as [j [Hj E]]. unfold row_add in Hj. rewrite upd_length in Hj. change (LinModel.row (row_add c t m) j = q) in E.
  destruct (Nat.eq_dec j t) as [->|N]; [right; auto|]. rewrite (row_row_add n) in E by auto. destruct (Nat.eqb_spec j t); [contradiction|]. left. rewrite <- E. apply nth_In, Hj.
Qed.
Lemma place_ok : forall n cn gs m ps, cnok n cn -> rect n n m -> NoDup ps -> (forall p, In p ps -> ~ In p m) ->
  exists g2 ps', fold_left place_step cn (gs, m, ps) = (gs ++ g2, track_x row_add cn m, ps') /\ Forall (todd_gate n) g2 /\ incl ps' ps /\ tcnt g2 + length ps' = length ps /\
    (forall x k y, onq n m x y -> (fst (fwd g2 (k, y)) + phs ps' x = k + phs ps x)%Z /\ onq n (track_x row_add cn m) x (snd (fwd g2 (k, y)))) /\
    (forall c1 c2, cn = c1 ++ c2 -> forall p, In p ps' -> ~ In p (track_x row_add c1 m)).
Proof.
  intros n. induction cn as [|[c t] cn IH]; intros gs m ps OK R N NI.
  - exists [], ps. rewrite app_nil_r. split; [reflexivity|]. split; [constructor|]. split; [intros q Q; exact Q|]. split; [reflexivity|]. split.
    + intros x k y O. split; auto.
    + intros c1 c2 E. symmetry in E. apply app_eq_nil in E. destruct E as [-> _]. exact NI.
  - inversion OK as [|? ? [Hc [Ht Nct]] OK']; subst. cbn [fst snd] in *. set (m1 := row_add c t m).
    assert (R1 : rect n n m1) by (apply row_add_rect; auto).
    assert (GC : todd_gate n (GCNOT c t)) by (cbn; auto).
    cbn [fold_left place_step fst snd]. fold m1.
    assert (ON : forall x k y, onq n m x y -> onq n m1 x (snd (step (GCNOT c t) (k, y)))) by (intros x k y O; apply onq_cnot; auto).
    destruct (find (fun p => inb p m1) ps) as [p|] eqn:F.
    + apply find_some in F. destruct F as [Hp Ip]. apply inb_in in Ip. destruct (rm_first_ok p ps Hp N) as [N1 [B1 [L1 P1]]]. destruct (index_of_ok p m1 Ip) as [Xi Ei].
      set (i := index_of p m1) in *. rewrite (proj1 R1) in Xi.
      assert (PT : p = LinModel.row m1 t) by (destruct (in_row_add n m c t p R Ht Ip) as [X|X]; [destruct (NI p Hp X)|exact X]).
      destruct (IH ((gs ++ [GCNOT c t]) ++ [Tg i false]) m1 (rm_first p ps) OK' R1 N1) as [g2 [ps' [A [B [D [E [G H]]]]]]].
      { intros q Hq. apply B1 in Hq. intros X. destruct (in_row_add n m c t q R Ht X) as [Y|Y]; [destruct (NI q (proj1 Hq) Y)|]. apply (proj2 Hq). rewrite PT. exact Y. }
      exists (GCNOT c t :: Tg i false :: g2), ps'. split; [rewrite A, <- !app_assoc; reflexivity|]. split; [constructor; [exact GC|]; constructor; [apply tg_todd; exact Xi|exact B]|].
      split; [intros q Q; apply (B1 q), D, Q|]. split.
      * change (GCNOT c t :: Tg i false :: g2) with ([GCNOT c t; Tg i false] ++ g2). rewrite tcnt_app. change (tcnt [GCNOT c t; Tg i false]) with 1. lia.
      * split.
        -- intros x k y O. specialize (ON x k y O). cbn [fwd fold_left]. destruct (step (GCNOT c t) (k, y)) as [k1 y1] eqn:ES. cbn [step] in ES. injection ES as <- E1. cbn [snd] in ON. rewrite step_tg.
           change (fold_left _ g2 ?z) with (fwd g2 z). destruct (G x (k + b2z (y1 i))%Z y1 ON) as [G1 G2]. split; [|exact G2]. rewrite G1.
           rewrite (ON i), (proj2 (Nat.ltb_lt _ _) Xi). change (LinModel.row m1 i) with (nth i m1 []). rewrite Ei. specialize (P1 x). lia.
        -- intros [|e c1] c2 Ec q Hq; [apply NI, (B1 q), D, Hq|]. cbn [app] in Ec. injection Ec as <- Ec. apply (H c1 c2 Ec q Hq).
    + destruct (IH (gs ++ [GCNOT c t]) m1 ps OK' R1 N) as [g2 [ps' [A [B [D [E [G H]]]]]]].
      { intros q Hq X. assert (Y := find_none _ _ F q Hq). cbn beta in Y. rewrite (proj2 (inb_in q m1) X) in Y. discriminate. }
      exists (GCNOT c t :: g2), ps'. split; [rewrite A, <- !app_assoc; reflexivity|]. split; [constructor; auto|]. split; [exact D|]. split.
      * exact E.
      * split.
        -- intros x k y O. specialize (ON x k y O). cbn [fwd fold_left]. destruct (step (GCNOT c t) (k, y)) as [k1 y1] eqn:ES. cbn [step] in ES. injection ES as <- E1. cbn [snd] in ON.
           apply (G x k y1 ON).
        -- intros [|e c1] c2 Ec q Hq; [apply NI, D, Hq|]. cbn [app] in Ec. injection Ec as <- Ec. apply (H c1 c2 Ec q Hq).
Qed.

(** ** The CNOTs at the end *)
Lemma cnots_inv : forall n ops, cnok n ops -> mat_mul (cnots_mat n ops) (cnots_mat n (rev ops)) = mat_id n.
Proof.
  intros n ops OK. assert (OK' : cnok n (rev ops)) by (apply Forall_rev'; exact OK). rewrite !cnots_track. rewrite <- (ops_apply n n).
  - apply (track_rev' n n); auto. apply id_shape.
  - apply track_shape; auto. apply id_shape.
  - exact OK.
Qed.
Lemma cnots_wf : forall n ops, n <> 0 -> cnok n ops -> rows (cnots_mat n ops) = n /\ cols (cnots_mat n ops) = n /\ wfm (cnots_mat n ops) /\ invertible (cnots_mat n ops).
Proof.
  intros n ops Hn OK. destruct (track_shape n n ops (mat_id n) (id_shape n) OK) as [R C]. rewrite <- cnots_track in R, C. assert (RR : rows (cnots_mat n ops) = n) by apply R.
  split; auto. split; auto. split; [unfold wfm; rewrite RR, C; exact R|]. split; [congruence|]. exists (cnots_mat n (rev ops)). rewrite RR. split; [apply cnots_rect, Forall_rev'; exact OK|apply cnots_inv, OK].
Qed.
Definition flip2 (c : nat * nat) : nat * nat := (snd c, fst c).
Lemma final_cnots : forall n hist ops cn, n <> 0 -> cnok n ops -> cnok n cn -> exists mi h, inverse hist (cnots_mat n cn) = Ok (Some mi, h) /\
  wfm (mat_mul (cnots_mat n ops) mi) /\ invertible (mat_mul (cnots_mat n ops) mi) /\ rows (mat_mul (cnots_mat n ops) mi) = n /\
  forall cl, good_cnots (mat_mul (cnots_mat n ops) mi) cl -> cnok n (cn ++ map flip2 (rev cl)) /\ cnots_mat n (cn ++ map flip2 (rev cl)) = cnots_mat n ops.
Proof.
  intros n hist ops cn Hn OKo OKc. destruct (cnots_wf n cn Hn OKc) as [R [C [W [_ [N [RN IN]]]]]]. destruct (inverse_spec hist (cnots_mat n cn) W) as [o [h [E I]]].
  destruct o as [mi|]; [|exfalso; rewrite R in *; destruct (I ltac:(congruence) N RN) as [_ X]; contradiction]. rewrite R in I. destruct I as [_ [RM [I1 I2]]].
  assert (SM : shape n n mi) by (apply rect_shape; auto).
  assert (EM : mi = track_x row_add (rev cn) (mat_id n)).
  { rewrite cnots_track in I2. rewrite <- (ops_apply n n) in I2 by auto. rewrite <- I2. symmetry. apply (track_rev n n); auto. }
  set (T := mat_mul (cnots_mat n ops) mi) in *.
  assert (ET : T = track_x row_add ops mi) by (unfold T; rewrite cnots_track; symmetry; apply (ops_apply n n); auto).
  assert (OK2 : cnok n (rev cn ++ ops)) by (apply Forall_app; split; [apply Forall_rev'; exact OKc|exact OKo]).
  assert (ET2 : T = cnots_mat n (rev cn ++ ops)) by (rewrite ET, EM, cnots_track, track_x_app; reflexivity).
  destruct (cnots_wf n _ Hn OK2) as [TR [_ [TW TI]]]. rewrite <- ET2 in TR, TW, TI. exists mi, h. split; auto. split; auto. split; auto. split; auto.
  intros cl [RP GI]. fold T in RP, GI. rewrite TR in RP, GI.
  assert (RP' : track_x row_add (map flip2 cl) T = mat_id n). { rewrite <- RP. unfold replay, track_x. generalize T. clear. induction cl as [|[a b] cl IH]; intros T; auto. apply IH. }
  assert (OKf : cnok n (map flip2 cl)). { apply Forall_forall. intros ab H. apply in_map_iff in H. destruct H as [ct [<- H]]. destruct (GI ct H) as [A [B D]]. unfold opok, flip2. cbn. auto. }
  assert (OKr : cnok n (rev (map flip2 cl))) by (apply Forall_rev'; exact OKf). rewrite map_rev. split; [apply Forall_app; auto|].
  assert (RT : rect n n T) by (rewrite ET2; apply cnots_rect, OK2).
  rewrite cnots_mat_app. change (fold_left _ (rev (map flip2 cl)) ?z) with (track_x row_add (rev (map flip2 cl)) z).
  destruct (track_shape n n cn (mat_id n) (id_shape n) OKc) as [RA CA]. rewrite (ops_apply n n _ (cnots_mat n cn)); [|split; auto|exact OKr].
  rewrite <- RP', (track_rev n n) by auto. rewrite ET, <- (track_mul n n n) by (auto; split; auto). rewrite I1. reflexivity.
Qed.

(** ** todd_simp *)
Lemma nones_id : forall n p, In p (mat_id n) -> nones p = 1.
Proof.
  intros n p H. destruct (In_nth _ _ [] H) as [i [Hi E]]. assert (Hn : i < n) by (rewrite (proj1 (proj1 (id_shape n))) in Hi; exact Hi).
  assert (L : length p = n) by (apply (proj1 (id_shape n)), H).
  assert (G : forall k, k < n -> nth k p false = Nat.eqb i k) by (intros k Hk; rewrite <- E; apply (id_get n i k); auto).
  clear H Hi E. unfold nones. revert n i Hn L G. induction p as [|b p IH]; intros n i Hn L G; [simpl in L; lia|]. cbn [filter]. destruct n as [|n]; [lia|]. cbn [length] in L.
  assert (B := G 0 ltac:(lia)). cbn [nth] in B. destruct i as [|i]; cbn [Nat.eqb] in B; subst b.
  - cbn [length]. f_equal. assert (Z : forall k, nth k p false = false) by (intros k; destruct (Nat.lt_ge_cases k n) as [X|X]; [apply (G (S k)); lia|apply nth_overflow; lia]).
    clear - Z. induction p as [|b p IH]; auto. cbn [filter]. assert (B := Z 0). cbn in B. subst b. apply IH. intros k. apply (Z (S k)).
  - apply (IH n i); try lia. intros k Hk. apply (G (S k)). lia.
Qed.
Theorem todd_simp_ok : forall n sh hist gates, 2 <= n <= 499 -> Forall (todd_gate n) gates -> (forall l, Permutation (sh l) l) ->
  exists gates', todd_simp sh hist gates n = Ok (gates', map (fun i => (i, i)) (seq 0 n)) /\ Forall (todd_gate n) gates' /\
    (forall s, cden gates' s = cden gates s) /\ tcnt gates' <= tcnt gates.
Proof.
  intros n sh hist gates Hn F SH. destruct (poly_ok n gates F) as [t [ex [E0 [[TK [ops [OKo EX]]] [NO SG]]]]]. unfold todd_simp. rewrite E0. cbn [bind fst snd].
  assert (TO := tcols_ok n t TK). change (to_par_matrix t) with (transpose (tcols t)).
  destruct (todd_iter_ok n sh (tcols t) hist TO ltac:(lia) SH) as [cs [h1 [E1 [CO [SE [NT [cs0 [R0 L0]]]]]]]]. rewrite E1. cbn [bind].
  rewrite (transpose_invol n cs) by (auto; lia). unfold split_cols. destruct (split_loop n cs [] [] CO) as [g1 [E2 [F1 [T1 W1]]]]. rewrite E2. cbn [bind app].
  unfold add_par_matrix. rewrite (transpose_invol n cs) by (auto; lia). rewrite (transpose_invol n (tcols t)) by (auto; lia).
  destruct (to_clifford_ok n (tcols t) cs TO CO SE) as [gc [E3 [CG [CB CS]]]]. rewrite E3. cbn [bind]. destruct (cl_all n gc CG CB) as [F2 [T2 W2]].
  assert (CW : colsok n (wn cs)) by (intros c H; apply filter_In in H; apply CO, H).
  destruct (parity_network_ok n (wn cs) CW) as [cn [E4 [OKc RE]]]. rewrite E4. cbn [bind].
  destruct (final_cnots n h1 ops cn ltac:(lia) OKo OKc) as [mi [h2 [E5 [TW [TI [TR FC]]]]]]. rewrite E5. cbn [bind fst snd].
  rewrite EX. destruct (to_cnots_opt false h2 _ TW TI) as [GO EO]. destruct (EO ltac:(rewrite TR; lia)) as [cl [h3 E6]]. rewrite E6. cbn [bind fst snd].
  destruct (FC cl (GO _ _ E6)) as [OKa EA]. change (map (fun c => (snd c, fst c)) (rev cl)) with (map flip2 (rev cl)).
  set (all := cn ++ map flip2 (rev cl)) in *.
  assert (ND : NoDup (wn cs)) by (apply NoDup_filter, NT).
  assert (N1 : forall p, In p (wn cs) -> ~ In p (mat_id n)).
  { intros p H X. apply filter_In in H. destruct H as [_ H]. rewrite (nones_id n p X) in H. discriminate. }
  destruct (place_ok n all (g1 ++ gc) (mat_id n) (wn cs) OKa (proj1 (id_shape n)) ND N1) as [g2 [ps' [E7 [F3 [IN [T3 [W3 PR]]]]]]]. rewrite E7.
  assert (PE : ps' = []).
  { destruct ps' as [|p ps']; auto. exfalso. assert (Hp : In p (wn cs)) by (apply IN; left; reflexivity). assert (NZ : existsb (fun b => b) p = true) by (apply NT; apply filter_In in Hp; apply Hp).
    destruct (RE p Hp NZ) as [c1 [c2 [i [Ec [Hi Er]]]]]. apply (PR c1 (c2 ++ map flip2 (rev cl)) ltac:(unfold all; rewrite Ec, app_assoc; reflexivity) p (or_introl eq_refl)).
    rewrite <- Er. apply nth_In. rewrite <- cnots_track. assert (OK1 : cnok n c1) by (rewrite Ec in OKc; apply Forall_app in OKc; apply OKc). rewrite (proj1 (cnots_rect n c1 OK1)). exact Hi. }
  subst ps'. eexists. split; [reflexivity|]. assert (FA : Forall (todd_gate n) ((g1 ++ gc) ++ g2)) by (apply Forall_app; split; [apply Forall_app; auto|exact F3]). split; auto. split.
  - apply (fwd_eq n); auto. intros x. destruct (SG x) as [K1 O1]. rewrite !fwd_app, W1, W2. destruct (W3 x (0 + phs (w1 cs) x + cl_sum x gc)%Z x (onq_id n x)) as [K2 O2].
    rewrite <- cnots_track, EA, <- EX in O2. split; [apply (onq_ext n ex x); auto|]. cbn [phs] in K2. rewrite Z.add_0_r in K2. rewrite K2.
    eapply cong8_trans; [|apply cong8_sym, K1]. rewrite <- (tcols_phs n t x (proj2 TK)). destruct (CS x) as [q Eq]. exists q. rewrite Eq. assert (PS := phs_split cs x). lia.
  - rewrite !tcnt_app, T1, T2. cbn [length] in T3. assert (LS := len_split cs). assert (LC := cols_odd n t cs0 TK R0). lia.
Qed.

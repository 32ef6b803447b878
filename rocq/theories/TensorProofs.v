(** tensorfy returns the tensor of the linear map of the diagram *)
From Coq Require Import Reals ZArith QArith Qcanon List Bool Arith Lia Lra Permutation FunctionalExtensionality.
From Verif Require Import CNum Base ScalarModel ScalarProofs GraphModel RulesModel GraphSem SumLemmas GraphProofs RuleLemmas InvProofs BfixProofs TotalProofs VerifyProofs GraphAlgProofs TensorModel TensorNp TensorSpider TensorPos TensorForm TensorStep.
Import ListNotations.
Open Scope nat_scope.

Lemma nd_app_l : forall A (l l' : list A), NoDup (l ++ l') -> NoDup l.
Proof. induction l as [|a l IH]; intros l' H; [constructor|]. inversion H as [|? ? N1 N2]; subst. constructor; [intros I; apply N1, in_app_iff; auto|eauto]. Qed.
Lemma nd_app_r : forall A (l l' : list A), NoDup (l ++ l') -> NoDup l'.
Proof. induction l as [|a l IH]; intros l' H; auto. inversion H; subst. eauto. Qed.
Lemma nd_map_in : forall (f : nat -> nat) l, NoDup l -> (forall x y, In x l -> In y l -> f x = f y -> x = y) -> NoDup (map f l).
Proof.
  intros f l N. induction N as [|a l NI N IH]; intros H; cbn; constructor; [|apply IH; intros; apply H; auto; right; auto].
  intros I. apply in_map_iff in I. destruct I as [x [E I]]. apply NI. rewrite <- (H x a); auto; [right|left]; auto.
Qed.

(** ** The start *)
Fixpoint labs (a : nat) (l : list nat) : list label := match l with [] => [] | v :: l => Inp a :: Leg v :: labs (S a) l end.
Lemma labs_snoc : forall l a v, labs a (l ++ [v]) = labs a l ++ [Inp (a + length l); Leg v].
Proof. induction l as [|w l IH]; intros a v; cbn; [rewrite Nat.add_0_r; auto|]. rewrite IH. cbn. rewrite Nat.add_succ_r. auto. Qed.
Lemma poss_labs : forall l a w, NoDup l -> poss w (labs a l) = match pos w l with Some j => [1 + 2 * j] | None => [] end.
Proof.
  induction l as [|v l IH]; intros a w N; auto. inversion N as [|? ? N1 N2]; subst. change (labs a (v :: l)) with ([Inp a; Leg v] ++ labs (S a) l).
  rewrite poss_app, IH by auto. cbn [pos length]. unfold poss. cbn [length seq filter lab nth is_leg]. destruct (Nat.eqb_spec v w) as [->|NE].
  - assert (E : pos w l = None) by (apply pos_none; auto). rewrite E. auto.
  - destruct (pos w l) as [j|]; cbn [option_map map app]; auto. f_equal. lia.
Qed.
Lemma ord_labs : forall g l a, incl l (ginputs g) -> a + length l = length (ginputs g) -> ord g a (labs a l).
Proof. induction l as [|v l IH]; intros a I E; cbn in *; [lia|]. split; auto. split; [left; apply I; left; auto|]. apply IH; [intros x Hx; apply I; right; auto|lia]. Qed.
Lemma labs_in : forall l a v, In (Leg v) (labs a l) -> In v l.
Proof. induction l as [|w l IH]; intros a v H; cbn in *; auto. destruct H as [H|[H|H]]; [discriminate|injection H; auto|right; eauto]. Qed.
Lemma start_ind : forall l a ind w, NoDup l -> dget w (fold_left (fun ind iv => dset (snd iv) [1 + 2 * fst iv] ind) (combine (seq a (length l)) l) ind) =
  match pos w l with Some j => Some [1 + 2 * (a + j)] | None => dget w ind end.
Proof.
  induction l as [|v l IH]; intros a ind w N; auto. inversion N as [|? ? N1 N2]; subst. cbn [length seq combine fold_left pos]. rewrite IH by auto. cbn [fst snd].
  rewrite dget_dset. destruct (Nat.eqb_spec v w) as [->|NE].
  - assert (E : pos w l = None) by (apply pos_none; auto). rewrite E, Nat.eqb_refl, Nat.add_0_r. auto.
  - destruct (pos w l) as [j|]; cbn [option_map]; [do 3 f_equal; lia|]. destruct (Nat.eqb_spec w v); [congruence|auto].
Qed.
Lemma rest_nil : forall L, rest L [] = L.
Proof.
  intros L. unfold rest. rewrite free_nil. apply nth_ext with (d := Inp 0) (d' := Inp 0); [rewrite map_length, seq_length; auto|]. intros k K. rewrite map_length, seq_length in K. rewrite nth_ms; auto.
Qed.
Lemma io_isX : forall g v, zinv g -> In v (ginputs g) \/ In v (goutputs g) -> isX g v = false /\ (forall b, pw g v b = C1) /\ In v (vertices g).
Proof.
  intros g v Z H. destruct (zx_io _ (zi_zx _ Z) v H) as [Hv B]. unfold pw. rewrite B. unfold isB in B. apply vtype_eqb_eq in B. unfold isX. rewrite B. auto.
Qed.
Lemma start_form : forall g, zinv g -> io_ok g -> layout g -> forall pre suf, ginputs g = pre ++ suf ->
  exists T, foldM (fun T _ => tensordot T t_id2 [] []) (seq 0 (length pre)) t_one = Ok T /\ form g T (labs 0 pre) (rev pre) C1.
Proof.
  intros g Z IO LY. induction pre as [|v pre IH] using rev_ind; intros suf E.
  - exists t_one. split; [reflexivity|]. split; auto. intros x0 ix H. cbn. unfold part, legs. cbn. ring.
  - rewrite <- app_assoc in E. destruct (IH _ E) as [T [H1 F]]. rewrite app_length. cbn [length]. rewrite seq_app, RuleLemmas.foldM_app, H1. cbn [bind plus seq foldM].
    assert (NI : NoDup (ginputs g)) by (apply (nd_app_l _ _ _ IO)).
    assert (Iv : In v (ginputs g)) by (rewrite E; apply in_app_iff; right; left; auto). destruct (io_isX g v Z (or_introl Iv)) as [NX [PW Hv]].
    assert (Ev : nth (length pre) (ginputs g) 0 = v) by (rewrite E, app_nth2, Nat.sub_diag by lia; auto).
    destruct (contract g T (labs 0 pre) (rev pre) C1 v t_id2 (fun _ => C1) (repeat (lw false) 2) [] [] [Inp (length pre); Leg v]) as [T' [H2 F']]; auto.
    + rewrite <- in_rev. rewrite E in NI. apply NoDup_remove_2 in NI. intros I. apply NI, in_app_iff. auto.
    + rewrite app_nil_r. apply id_form.
    + split; [constructor|intros p []].
    + intros x [|a [|b [|]]] Li; try discriminate. unfold legs. cbn. rewrite Ev, NX. cbn. auto.
    + intros x. unfold part. cbn [cprod pprod length seq]. rewrite PW, (cprod_1 _ (fun u => ew g v u (x v) (x u)) (rev pre)); [ring|]. intros u Hu. apply in_rev in Hu.
      unfold ew. destruct (edge_type g v u) eqn:EE; auto. exfalso. destruct (LY v u Iv) as [_ N]; [congruence|]. apply N. rewrite E. apply in_app_iff; auto.
    + cbn [length seq] in H2. rewrite H2. exists T'. split; [reflexivity|]. rewrite rest_nil in F'. rewrite labs_snoc, rev_app_distr. exact F'.
Qed.
Lemma start_ok : forall g, zinv g -> io_ok g -> layout g -> exists T ind L, tensor_start g = Ok (T, ind) /\ tinv g [] (rev (ginputs g)) T ind L C1.
Proof.
  intros g Z IO LY. destruct (start_form g Z IO LY (ginputs g) []) as [T [H F]]; [rewrite app_nil_r; auto|]. unfold tensor_start. rewrite H. cbn [bind].
  assert (NI : NoDup (ginputs g)) by (apply (nd_app_l _ _ _ IO)). eexists. eexists. exists (labs 0 (ginputs g)). split; [reflexivity|]. constructor; auto.
  - intros v. rewrite <- in_rev. cbn. tauto.
  - apply NoDup_rev; auto.
  - intros v I. apply in_rev. rewrite rev_involutive. eapply labs_in; eauto.
  - intros v. rewrite start_ind, poss_labs by auto. destruct (pos v (ginputs g)) as [j|] eqn:P.
    + rewrite (proj2 (nmem_spec _ _)); auto. apply in_rev. rewrite rev_involutive. apply pos_some in P. destruct P as [P <-]. apply nth_In; auto.
    + apply pos_none in P. rewrite (proj2 (nmem_false _ _)); auto. rewrite <- in_rev. auto.
  - intros v Iv. apply in_rev in Iv. assert (WF := zx_wf _ (zi_zx _ Z)). rewrite poss_labs by auto. destruct (pos v (ginputs g)) as [j|] eqn:P; [|apply pos_none in P; contradiction].
    rewrite (proj2 (nmem_false v (goutputs g))). 2:{ intros O. apply in_split in Iv. destruct Iv as [l1 [l2 Q]]. unfold io_ok in IO. rewrite Q, <- app_assoc in IO. cbn in IO. apply NoDup_remove_2 in IO. apply IO. rewrite !in_app_iff. auto. }
    destruct (zx_io _ (zi_zx _ Z) v (or_introl Iv)) as [Hv B]. unfold isB in B. apply vtype_eqb_eq in B. destruct (zi_deg _ Z v Hv B) as [u U].
    rewrite filter_all. 2:{ intros n Hn. apply negb_true_iff, nmem_false. rewrite <- in_rev. apply (LY v n); auto. apply neighbors_spec; auto. }
    cbn [length]. rewrite (nodup_len (neighbors g v) [u]); auto; [apply neighbors_nd; auto|repeat constructor; auto|]. intros a. rewrite neighbors_spec, U. cbn. intuition.
  - apply ord_labs; auto. apply incl_refl.
Qed.

(** ** The loop *)
Definition posC (r : C) : Prop := exists q : R, (0 < q)%R /\ r = RtoC q.
Lemma form_scale : forall g T L W r c, form g T L W r -> form g (tscale c T) L W (c * r)%C.
Proof. intros g T L W r c [S F]. split; auto. intros x0 ix H. cbn [tscale tent]. rewrite (F x0) by auto. ring. Qed.
Lemma row_ok : forall g ps up i D v E W T ind L r, zinv g -> io_ok g -> no_iso_x g -> layout g -> order g = D ++ v :: E -> tinv g D W T ind L r ->
  exists W' T' ind' L' r', tensor_row g ps up i (T, ind) v = Ok (T', ind') /\ tinv g (D ++ [v]) W' T' ind' L' r' /\ (ps = true -> r' = r) /\ (posC r -> posC r').
Proof.
  intros g ps up i D v E W T ind L r Z IO NX LY OR TI. destruct (step_ok g D v E W T ind L r Z IO NX LY OR TI) as [W' [T' [ind' [L' [H TI']]]]].
  unfold tensor_row. rewrite H. cbn [bind fst snd].
  match goal with |- context [if ?c then _ else _] => destruct c eqn:EC end.
  - exists W', (tscale (RtoC (10 ^ 4)) T'), ind', L', (RtoC (10 ^ 4) * r)%C. split; [reflexivity|]. split; [destruct TI'; constructor; auto; apply form_scale; auto|]. split.
    + intros ->. cbn in EC. rewrite andb_false_r in EC. discriminate.
    + intros [q [P ->]]. exists (10 ^ 4 * q)%R. split; [|symmetry; apply RtoC_mult]. apply Rmult_lt_0_compat; auto. apply pow_lt. lra.
  - exists W', T', ind', L', r. auto.
Qed.
Lemma foldM_rows : forall g ps up i, zinv g -> io_ok g -> no_iso_x g -> layout g -> forall vs D E W T ind L r, order g = D ++ vs ++ E -> tinv g D W T ind L r ->
  exists W' T' ind' L' r', foldM (tensor_row g ps up i) vs (T, ind) = Ok (T', ind') /\ tinv g (D ++ vs) W' T' ind' L' r' /\ (ps = true -> r' = r) /\ (posC r -> posC r').
Proof.
  intros g ps up i Z IO NX LY. induction vs as [|v vs IH]; intros D E W T ind L r OR TI.
  - exists W, T, ind, L, r. rewrite app_nil_r. auto.
  - cbn [foldM]. destruct (row_ok g ps up i D v (vs ++ E) W T ind L r Z IO NX LY OR TI) as [W1 [T1 [i1 [L1 [r1 [-> [TI1 [A1 B1]]]]]]]]. cbn [bind].
    destruct (IH (D ++ [v]) E W1 T1 i1 L1 r1) as [W2 [T2 [i2 [L2 [r2 [-> [TI2 [A2 B2]]]]]]]]; auto; [rewrite <- app_assoc; auto|].
    exists W2, T2, i2, L2, r2. split; auto. rewrite <- app_assoc in TI2. split; auto. split; auto. intros H. rewrite A2; auto.
Qed.
Lemma rows_done : forall g ps up, zinv g -> io_ok g -> no_iso_x g -> layout g -> forall rs i D W T ind L r, order g = D ++ concat rs -> tinv g D W T ind L r ->
  exists W' T' ind' L' r', tensor_rows g ps up i rs (T, ind) = Ok (T', ind') /\ tinv g (order g) W' T' ind' L' r' /\ (ps = true -> r' = r) /\ (posC r -> posC r').
Proof.
  intros g ps up Z IO NX LY. induction rs as [|vs rs IH]; intros i D W T ind L r OR TI.
  - cbn in OR. rewrite app_nil_r in OR. rewrite OR. exists W, T, ind, L, r. auto.
  - cbn [concat] in OR. cbn [tensor_rows]. destruct (foldM_rows g ps up i Z IO NX LY vs D (concat rs) W T ind L r OR TI) as [W1 [T1 [i1 [L1 [r1 [-> [TI1 [A1 B1]]]]]]]]. cbn [bind].
    destruct (IH (S i) (D ++ vs) W1 T1 i1 L1 r1) as [W2 [T2 [i2 [L2 [r2 [-> [TI2 [A2 B2]]]]]]]]; auto; [rewrite <- app_assoc; auto|].
    exists W2, T2, i2, L2, r2. do 2 (split; [auto|]). split; auto. intros H. rewrite A2; auto.
Qed.

(** ** The end *)
Lemma ord_le : forall g L i, ord g i L -> i <= length (ginputs g).
Proof. induction L as [|[j|v] L IH]; intros i H; cbn in H; [lia| |]; destruct H as [A B]; apply IH in B; lia. Qed.
Lemma ord_shape : forall g L i, ord g i L -> (forall v, In (Leg v) L -> ~ In v (ginputs g)) -> exists M, L = map Inp (seq i (length (ginputs g) - i)) ++ map Leg M.
Proof.
  intros g. induction L as [|[j|v] L IH]; intros i H N.
  - cbn in H. subst. rewrite Nat.sub_diag. exists []. auto.
  - cbn in H. destruct H as [-> H]. destruct (IH (S i) H) as [M E]; [intros v I; apply N; right; auto|]. apply ord_le in H. exists M. rewrite E. replace (length (ginputs g) - i) with (S (length (ginputs g) - S i)) by lia. auto.
  - cbn in H. destruct H as [[A|A] H]; [exfalso; apply (N v); auto; left; auto|]. destruct (IH i H) as [M E]; [intros w I; apply N; right; auto|]. exists (v :: M). rewrite E, A, Nat.sub_diag. auto.
Qed.
Lemma poss_legs : forall v M, length (poss v (map Leg M)) = count_occ Nat.eq_dec M v.
Proof.
  induction M as [|w M IH]; auto. change (map Leg (w :: M)) with ([Leg w] ++ map Leg M). rewrite poss_app, app_length, map_length, IH. cbn [count_occ]. unfold poss. cbn [length seq filter lab nth is_leg].
  destruct (Nat.eq_dec w v) as [->|N]; [rewrite Nat.eqb_refl; auto|]. rewrite (proj2 (Nat.eqb_neq w v) N). auto.
Qed.
Lemma foldM_os : forall (ind : dict (list nat)) f os acc, (forall o, In o os -> exists l, dget o ind = Some (f o :: l)) ->
  foldM (fun l o => let* x := of_opt KeyError (dget o ind) in let* i := of_opt IndexError (nth_error x 0) in Ok (l ++ [i])) os acc = Ok (acc ++ map f os).
Proof.
  intros ind f. induction os as [|o os IH]; intros acc H; cbn [foldM map]; [rewrite app_nil_r; auto|]. destruct (H o (or_introl eq_refl)) as [l E]. rewrite E. cbn [of_opt bind nth_error].
  rewrite IH by (intros; apply H; right; auto). rewrite <- app_assoc. auto.
Qed.
Lemma part_perm : forall g L L' x, wfg g -> Permutation L L' -> part g L x = part g L' x.
Proof. intros g L L' x W P. unfold part. rewrite (cprod_perm _ _ _ _ P). f_equal. apply pprod_perm; auto. intros u v. apply ew_sym; auto. Qed.

Definition value (g : graph) (b : assignment) : C := sumv (internal g) (part g (vertices g)) b.
Lemma sem_value : forall g b, sem g b = (to_number (gscalar g) * value g b)%C.
Proof. intros. unfold sem, value. rewrite <- sumv_scal. apply sumv_ext. intros. apply integL_part. Qed.
Lemma end_ok : forall g W T ind L r, zinv g -> io_ok g -> tinv g (order g) W T ind L r ->
  exists os T', foldM (fun l o => let* x := of_opt KeyError (dget o ind) in let* i := of_opt IndexError (nth_error x 0) in Ok (l ++ [i])) (goutputs g) [] = Ok os /\
    transpose T (os ++ seq 0 (length (ginputs g))) = Ok T' /\ tshape T' = repeat 2 (length (goutputs g) + length (ginputs g)) /\
    forall b, tent T' (map b (goutputs g) ++ map b (ginputs g)) = (r * value g b)%C.
Proof.
  intros g W T ind L r Z IO [TF TW TN TL TD TC TO]. assert (WF := zx_wf _ (zi_zx _ Z)).
  assert (NI : NoDup (ginputs g)) by (apply (nd_app_l _ _ _ IO)). assert (NO : NoDup (goutputs g)) by (apply (nd_app_r _ _ _ IO)).
  assert (DJ : forall v, In v (ginputs g) -> In v (goutputs g) -> False).
  { intros v A B. apply in_split in A. destruct A as [l1 [l2 Q]]. unfold io_ok in IO. rewrite Q, <- app_assoc in IO. cbn in IO. apply NoDup_remove_2 in IO. apply IO. rewrite !in_app_iff. auto. }
  assert (WV : forall v, In v W <-> In v (vertices g)).
  { intros v. rewrite TW, order_in. split; auto. intros [A|A]; auto. apply (io_isX g v Z); auto. }
  assert (PC : forall v, In v W -> length (poss v L) = if nmem v (goutputs g) then 1 else 0).
  { intros v Hv. rewrite TC by auto. rewrite filter_none; auto. intros n Hn. apply negb_false_iff, nmem_spec, WV. apply neighbors_spec in Hn. destruct (edge_type g v n) eqn:EE; [|congruence]. eapply edge_in_r; eauto. }
  assert (NL : forall v, In (Leg v) L -> In v (goutputs g)).
  { intros v I. assert (Hv := TL v I). assert (C := PC v Hv). destruct (nmem v (goutputs g)) eqn:O; [apply nmem_spec; auto|]. exfalso. apply (In_nth _ _ (Inp 0)) in I. destruct I as [p [Lp Ep]].
    assert (Ip : In p (poss v L)) by (apply in_poss; auto). destruct (poss v L); [destruct Ip|discriminate]. }
  destruct (ord_shape g L 0 TO) as [M EL]; [intros v I A; apply NL in I; eauto|]. rewrite Nat.sub_0_r in EL. set (n := length (ginputs g)) in *.
  assert (PM : Permutation M (goutputs g)).
  { rewrite (Permutation_count_occ Nat.eq_dec). intros v. rewrite <- poss_legs. destruct (in_dec Nat.eq_dec v (vertices g)) as [Hv|Hv].
    - assert (C := PC v (proj2 (WV v) Hv)). rewrite EL, poss_app, app_length, map_length, (poss_none v (map Inp (seq 0 n))) in C by (intros l I Q; apply in_map_iff in I; destruct I as [j [<- _]]; discriminate).
      cbn [length plus] in C. rewrite C. destruct (nmem v (goutputs g)) eqn:O.
      + symmetry. apply nmem_spec in O. apply NoDup_count_occ' with (decA := Nat.eq_dec) in O; auto.
      + symmetry. apply count_occ_not_In. apply nmem_false; auto.
    - rewrite (poss_none v (map Leg M)). 2:{ intros l I Q. subst l. apply Hv. apply WV, TL. rewrite EL. apply in_app_iff; auto. }
      symmetry. cbn. apply count_occ_not_In. intros O. apply Hv. apply (io_isX g v Z); auto. }
  assert (LL : length L = length (goutputs g) + n). { rewrite EL, app_length, !map_length, seq_length, (Permutation_length PM). lia. }
  set (f := fun o => nth 0 (poss o L) 0).
  assert (FO : forall o, In o (goutputs g) -> dget o ind = Some [f o] /\ f o < length L /\ lab L (f o) = Leg o).
  { intros o Ho. assert (Hw : In o W) by (apply WV, (io_isX g o Z); auto). assert (C := PC o Hw). rewrite (proj2 (nmem_spec _ _) Ho) in C.
    assert (I : In (f o) (poss o L)) by (apply nth_In; lia). apply in_poss in I. rewrite TD, (proj2 (nmem_spec _ _) Hw). split; auto. unfold f. destruct (poss o L) as [|p [|]]; try discriminate. auto. }
  assert (FI : forall i, i < n -> lab L i = Inp i). { intros i Hi. unfold lab. rewrite EL, app_nth1 by (rewrite map_length, seq_length; auto). apply nth_ms; auto. }
  exists (map f (goutputs g)). rewrite (foldM_os ind f) by (intros o Ho; exists []; apply FO; auto). cbn [app].
  set (perm := map f (goutputs g) ++ seq 0 n).
  assert (RT : rank T = length L) by (unfold rank; rewrite (proj1 TF), repeat_length; auto).
  assert (LP : length perm = length L) by (unfold perm; rewrite app_length, map_length, seq_length; auto).
  assert (R : inr (length L) perm).
  { split.
    - apply RuleLemmas.nodup_app.
      + apply nd_map_in; auto. intros o o' Ho Ho' E. destruct (FO o Ho) as [_ [_ A]], (FO o' Ho') as [_ [_ B]]. congruence.
      + apply seq_NoDup.
      + intros p I J. apply in_map_iff in I. destruct I as [o [<- Ho]]. apply in_seq in J. destruct (FO o Ho) as [_ [_ A]]. rewrite FI in A by lia. discriminate.
    - intros p I. apply in_app_iff in I. destruct I as [I|I]; [apply in_map_iff in I; destruct I as [o [<- Ho]]; apply FO; auto|apply in_seq in I; lia]. }
  assert (FR : free (length L) perm = []) by (assert (X := free_len _ _ R); apply length_zero_iff_nil; lia).
  unfold transpose. rewrite RT, LP, Nat.eqb_refl, (proj2 (distinct_nodup _) (proj1 R)). cbn [andb].
  rewrite (proj2 (forallb_forall _ _)) by (intros p I; apply Nat.ltb_lt; apply R; auto). eexists. do 2 (split; [reflexivity|]). split.
  - cbn [tshape]. unfold shape_at. rewrite (proj1 TF), shape_repeat by apply R. rewrite LP, LL. auto.
  - intros b. cbn [tent]. rewrite <- map_app. set (B := goutputs g ++ ginputs g).
    rewrite (proj2 TF b) by apply fill_len. f_equal.
    assert (NB : NoDup B) by (apply RuleLemmas.nodup_app; auto; intros v A C; eauto).
    assert (LB : length B = length L) by (unfold B; rewrite app_length; auto).
    assert (BB : forall v, In v B <-> In v (vertices g) /\ isB g v = true).
    { intros v. unfold B. rewrite in_app_iff. split.
      - intros H. apply (zx_io _ (zi_zx _ Z)). tauto.
      - intros [Hv Hb]. unfold isB in Hb. apply vtype_eqb_eq in Hb. destruct (zi_io _ Z v Hv Hb); auto. }
    rewrite (sumv_ext W _ (fun x => (part g (vertices g) x * cprod (fun q => dlt (x q) (b q)) B)%C)).
    + assert (PW : Permutation W (B ++ internal g)).
      { apply NoDup_Permutation; auto.
        - apply RuleLemmas.nodup_app; auto; [apply NoDup_filter, WF|]. intros v A C. apply BB in A. apply filter_In in C. destruct A as [_ A], C as [_ C]. rewrite A in C. discriminate.
        - intros v. rewrite WV, in_app_iff, BB. unfold internal. rewrite filter_In, negb_true_iff. destruct (isB g v); intuition. }
      rewrite (sumv_perm _ _ PW TN), sumv_app.
      rewrite (sumv_ext B _ (fun i => (sumv (internal g) (part g (vertices g)) i * cprod (fun q => dlt (i q) (b q)) B)%C)).
      * rewrite (sumv_point B (sumv (internal g) (part g (vertices g))) b b NB). unfold value. f_equal. apply functional_extensionality. intros v. destruct (in_dec Nat.eq_dec v B); auto.
      * intros y. rewrite (sumv_ext (internal g) _ (fun x => (cprod (fun q => dlt (x q) (b q)) B * part g (vertices g) x)%C)) by (intros; ring).
        rewrite (sumv_mult_indep (internal g) (fun x => cprod (fun q => dlt (x q) (b q)) B)); [ring|]. intros z v c Hv. apply cprod_ext. intros q Hq. unfold upd. destruct (Nat.eqb_spec q v) as [->|_]; auto.
        exfalso. apply BB in Hq. apply filter_In in Hv. destruct Hq as [_ Hq], Hv as [_ Hv]. rewrite Hq in Hv. discriminate.
    + intros x. rewrite (part_perm g W (vertices g)) by (auto; apply NoDup_Permutation; auto; apply WF). f_equal.
      rewrite legs_fill by auto. unfold rest. rewrite FR. cbn [map]. unfold legs. cbn [length seq cprod]. rewrite Cmult_1_r, (cprod_nth (fun q => dlt (x q) (b q))), LP, LB.
      apply cprod_ext. intros j J. apply in_seq in J.
      assert (EB : nth j (map b B) false = b (nth j B 0)) by (rewrite (nth_indep _ _ (b 0)) by (rewrite map_length; lia); apply map_nth). rewrite EB.
      unfold perm, B in *. destruct (lt_dec j (length (goutputs g))) as [LT|GE].
      * rewrite !app_nth1 by (rewrite ?map_length; auto). rewrite (nth_indep _ _ (f 0)), map_nth by (rewrite map_length; auto).
        assert (Io : In (nth j (goutputs g) 0) (goutputs g)) by (apply nth_In; auto). rewrite (proj2 (proj2 (FO _ Io))). cbn [legw]. rewrite (proj1 (io_isX g _ Z (or_intror Io))). auto.
      * rewrite !app_nth2 by (rewrite ?map_length; lia). rewrite map_length, seq_nth by lia. cbn [plus]. rewrite FI by lia. auto.
Qed.

Theorem tensorfy_ok : forall g ps up, zinv g -> io_ok g -> no_iso_x g -> layout g ->
  exists T q, tensorfy g ps up = Ok T /\ tshape T = repeat 2 (length (goutputs g) + length (ginputs g)) /\ (0 < q)%R /\ (ps = true -> q = 1%R) /\
    forall b, tent T (map b (goutputs g) ++ map b (ginputs g)) = (RtoC q * (if ps then sem g b else value g b))%C.
Proof.
  intros g ps up Z IO NX LY. unfold tensorfy.
  assert (E1 : existsb (fun v => match dget v (grindex g) with Some _ => false | None => true end) (vertices g) = false).
  { apply not_true_iff_false. intros H. apply existsb_exists in H. destruct H as [v [Hv Q]]. apply (zi_rows _ Z v Hv). destruct (dget v (grindex g)); [discriminate|auto]. }
  rewrite E1.
  assert (E2 : Nat.eqb (length (ginputs g)) 0 && Nat.eqb (length (goutputs g)) 0 && existsb (fun v => vtype_eqb (vty g v) BOUNDARY) (vertices g) = false).
  { apply not_true_iff_false. intros H. rewrite !andb_true_iff in H. destruct H as [[A B] C]. apply Nat.eqb_eq, length_zero_iff_nil in A. apply Nat.eqb_eq, length_zero_iff_nil in B.
    apply existsb_exists in C. destruct C as [v [Hv Q]]. apply vtype_eqb_eq in Q. destruct (zi_io _ Z v Hv Q) as [I|I]; [rewrite A in I|rewrite B in I]; destruct I. }
  rewrite E2. destruct (start_ok g Z IO LY) as [T0 [i0 [L0 [-> TI0]]]]. cbn [bind].
  destruct (rows_done g ps up Z IO NX LY (row_list g) 0 [] _ T0 i0 L0 C1 eq_refl TI0) as [W [T1 [i1 [L1 [r [-> [TI [A B]]]]]]]]. cbn [bind fst snd].
  destruct (end_ok g W T1 i1 L1 r Z IO TI) as [os [T2 [-> [E [SH V]]]]]. cbn [bind]. rewrite E. cbn [bind].
  destruct B as [q [Q ER]]; [exists 1%R; split; [lra|reflexivity]|]. exists (if ps then tscale (to_number (gscalar g)) T2 else T2), q. split; [reflexivity|].
  split; [destruct ps; auto|]. split; auto. split.
  - intros P. assert (X := A P). rewrite ER in X. unfold RtoC, C1 in X. injection X. auto.
  - intros b. destruct ps; [cbn [tscale tent]; rewrite V, sem_value, ER; ring|]. rewrite V, ER. auto.
Qed.

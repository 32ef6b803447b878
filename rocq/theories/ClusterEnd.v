(** mbqc.py: cluster_state, the whole loop and the map of its result. *)
From Coq Require Import Reals ZArith QArith Qcanon List Bool Arith Lia Lra Permutation Ring FunctionalExtensionality.
From Verif Require Import CNum Base ScalarModel ScalarProofs GraphModel GraphSem SumLemmas GraphProofs GraphOps RulesModel RuleLemmas
  SpiderProofs IsoProofs IdProofs LcompProofs PivotProofs PivotMatch GrowProofs StoreProofs InvProofs BfixProofs TotalProofs AmpProofs ZXFacts CircGraphFacts.
From Verif Require Import CongModel CongProofs GadgetizeModel GadgetizeProofs MbqcModel MbqcProofs MbqcPauli ClusterModel ClusterProofs.
Import ListNotations.
Open Scope nat_scope.

(** ** Summing over spiders that are each copied to a boundary *)
Definition xs (O : nat -> nat) (l : list nat) (b : assignment) : assignment := fun u => if existsb (Nat.eqb u) l then b (O u) else b u.
Lemma collapse : forall O G l b, NoDup l -> (forall k k', In k l -> In k' l -> O k <> k') ->
  sumv l (fun x => (cprod (fun k => dlt (x k) (x (O k))) l * G x)%C) b = G (xs O l b).
Proof.
  intros O G. induction l as [|a l IH]; intros b ND D.
  - cbn [sumv cprod]. replace (xs O [] b) with b by (apply functional_extensionality; reflexivity). ring.
  - inversion ND as [|? ? Na ND']; subst. assert (D' : forall k k', In k l -> In k' l -> O k <> k') by (intros; apply D; right; auto).
    assert (Oa : O a <> a) by (apply D; left; auto). assert (Ol : ~ In (O a) l) by (intros Q; apply (D a (O a)); [left; auto|right; auto|auto]).
    assert (S : forall c, sumv l (fun x => (cprod (fun k => dlt (x k) (x (O k))) (a :: l) * G x)%C) (upd b a c) = (dlt c (b (O a)) * G (xs O l (upd b a c)))%C).
    { intros c. rewrite <- (IH (upd b a c) ND' D'). rewrite <- sumv_scal. apply sumv_ext_on. intros y Hy. cbn [cprod]. rewrite (Hy a Na), (Hy (O a) Ol), upd_same, upd_other by auto. ring. }
    cbn [sumv]. rewrite !S.
    assert (X : xs O l (upd b a (b (O a))) = xs O (a :: l) b).
    { apply functional_extensionality. intros u. unfold xs. cbn [existsb]. destruct (Nat.eqb_spec u a) as [->|Du]; cbn [orb].
      - destruct (existsb (Nat.eqb a) l) eqn:Q; [exfalso; apply Na; apply existsb_exists in Q; destruct Q as [z [Hz Qz]]; apply Nat.eqb_eq in Qz; subst; auto|]. apply upd_same.
      - destruct (existsb (Nat.eqb u) l) eqn:Q; [|apply upd_other; auto]. apply existsb_exists in Q. destruct Q as [z [Hz Qz]]. apply Nat.eqb_eq in Qz. subst z. apply upd_other. apply D; [right; auto|left; auto]. }
    destruct (b (O a)); cbn [dlt Bool.eqb]; unfold dlt; cbn [Bool.eqb]; rewrite X; ring.
Qed.
Lemma xs_in : forall O l b u, In u l -> xs O l b u = b (O u).
Proof. intros O l b u H. unfold xs. rewrite (proj2 (existsb_exists (Nat.eqb u) l)); auto. exists u. split; auto. apply Nat.eqb_refl. Qed.
Lemma xs_out : forall O l b u, ~ In u l -> xs O l b u = b u.
Proof. intros O l b u H. unfold xs. destruct (existsb (Nat.eqb u) l) eqn:Q; auto. apply existsb_exists in Q. destruct Q as [z [Hz Qz]]. apply Nat.eqb_eq in Qz. subst z. contradiction. Qed.

(** ** Places *)
Lemma even_inj : forall k z d, (even k + d = Qcz (2 * z) + d)%Qc -> Z.of_nat k = z.
Proof.
  intros k z d H. assert (H' : even k = Qcz (2 * z)) by (transitivity (even k + d - d)%Qc; [ring|rewrite H; ring]). unfold even in H'.
  assert (Q : (inject_Z (2 * Z.of_nat k) == inject_Z (2 * z))%Q) by (rewrite <- !this_Qcz, H'; reflexivity). unfold Qeq, inject_Z in Q. cbn [Qnum Qden] in Q. lia.
Qed.
Lemma even_off : forall k z c, (c = 0 \/ c = 4)%Z -> (even k + frac c 5)%Qc <> (Qcz (2 * z) - frac 4 5)%Qc.
Proof.
  intros k z c Hc H. unfold even in H. assert (H' : (Qcz (2 * Z.of_nat k) + frac c 5 + frac 4 5)%Qc = Qcz (2 * z)) by (rewrite H; ring).
  assert (Q : (inject_Z (2 * Z.of_nat k) + (c # 5) + (4 # 5) == inject_Z (2 * z))%Q).
  { rewrite <- !this_Qcz, <- H'. rewrite !this_plus. unfold frac, Q2Qc. cbn [this]. rewrite !Qred_correct. reflexivity. }
  unfold Qeq, inject_Z in Q. cbn [Qnum Qden Qplus] in Q. lia.
Qed.

Lemma cells_all : forall n m, list_prod (seq 0 m) (seq 0 n) = map (fun k => (k / n, k mod n)) (seq 0 (m * n)).
Proof.
  intros n m. destruct n as [|n]; [|apply cells_list; lia]. replace (m * 0) with 0 by lia. cbn [seq map]. generalize (seq 0 m). induction l as [|a l IH]; auto.
Qed.
Lemma loop_ok : forall m n ins, exists g0, grid m n empty_graph = (g0, map (fun q => seq (q * n) n) (seq 0 m)) /\
  forall j, j <= m * n -> exists g O I, foldM (cluster1 m n ins (map (fun q => seq (q * n) n) (seq 0 m))) (map (fun k => (k / n, k mod n)) (seq 0 j)) (g0, [], []) = Ok (g, map I (filter (isin n ins) (seq 0 j)), map O (seq 0 j)) /\
    cinv m n ins j O I g.
Proof.
  intros m n ins. destruct (grid_ok m n) as [g0 [G [[W [NL [NX [V [E [T X]]]]]] P]]]. exists g0. split; auto. induction j as [|j IH]; intros L.
  - exists g0, (fun k => k), (fun k => k). split; [reflexivity|]. constructor; auto.
    + lia.
    + intros u. rewrite V, in_seq. split; [intros Q; left; lia|intros [Q|[[k [Q _]]|[k [Q _]]]]; lia].
    + intros k Lk. split; auto. assert (Ln : n <> 0) by (intros ->; lia). assert (DM := Nat.div_mod k n Ln). assert (Lr := Nat.mod_upper_bound k n Ln). assert (Lq : k / n < m) by (apply Nat.div_lt_upper_bound; lia).
      destruct (P (k / n) (k mod n) Lq Lr) as [P1 P2]. replace (k / n * n + k mod n) with k in * by lia. auto.
    + intros k Q; lia.
    + intros k Q; lia.
    + intros a b _ _ Q. exfalso. apply Q. apply E.
  - destruct IH as [g [O [I [A CV]]]]; [lia|]. assert (Ln : 0 < n) by (destruct n; lia).
    assert (Lj : j < m * n) by lia.
    destruct (cell_step m n ins Ln j O I g (map I (filter (isin n ins) (seq 0 j))) (map O (seq 0 j)) Lj CV) as [g' [o [i [B CV']]]].
    exists g', (ext O j o), (ext I j i). split; auto. rewrite seq_S, map_app, foldM_app, A. cbn [bind map foldM plus]. rewrite B. cbn [bind]. f_equal. f_equal; [f_equal|].
    + rewrite filter_app, map_app. f_equal.
      * apply map_ext_in. intros k Hk. apply filter_In in Hk. destruct Hk as [Hk _]. apply in_seq in Hk. rewrite ext_lt by lia. auto.
      * cbn [filter]. destruct (isin n ins j); auto. cbn [map]. rewrite ext_same. auto.
    + rewrite map_app. f_equal; [apply map_ext_in; intros k Hk; apply in_seq in Hk; rewrite ext_lt by lia; auto|]. cbn [map]. rewrite ext_same. auto.
Qed.
Lemma single : forall (l : list nat) k, NoDup l -> (forall u, In u l <-> u = k) -> l = [k].
Proof.
  intros [|a l] k ND H; [exfalso; apply (proj2 (H k) eq_refl)|]. assert (a = k) by (apply H; left; auto). subst a. f_equal. destruct l as [|c l]; auto. exfalso. assert (c = k) by (apply H; right; left; auto). subst c. inversion ND as [|? ? N _]; subst. apply N. left; auto.
Qed.

(** the factor of the qubit in row q, column r: a sign and 1/sqrt 2 with each of the next qubits
    below and to the right, and a wire from the input if there is one *)
Definition factor (m n : nat) (ins : list (nat * nat)) (O I : nat * nat -> nat) (b : assignment) (p : nat * nat) : C :=
  let (q, r) := p in
  ((if Nat.ltb (q + 1) m then sq2p (-1) * sgn (b (O (q, r)) && b (O ((q + 1)%nat, r))) else C1) *
   (if Nat.ltb (r + 1) n then sq2p (-1) * sgn (b (O (q, r)) && b (O (q, (r + 1)%nat))) else C1) *
   (if existsb (fun c : nat * nat => Nat.eqb (fst c) q && Nat.eqb (snd c) r) ins then dlt (b (O (q, r))) (b (I (q, r))) else C1))%C.
Definition isinp (ins : list (nat * nat)) (p : nat * nat) : bool := existsb (fun c : nat * nat => Nat.eqb (fst c) (fst p) && Nat.eqb (snd c) (snd p)) ins.
Theorem cluster_ok : forall m n ins, exists g O I, cluster_state m n ins = Ok g /\ wfg g /\ noloop g /\
  goutputs g = map O (list_prod (seq 0 m) (seq 0 n)) /\ NoDup (goutputs g) /\
  ginputs g = map I (filter (isinp ins) (list_prod (seq 0 m) (seq 0 n))) /\ NoDup (ginputs g) /\ (forall v, In v (ginputs g) -> ~ In v (goutputs g)) /\
  (forall v, In v (vertices g) -> (vty g v = BOUNDARY <-> In v (ginputs g) \/ In v (goutputs g))) /\
  (forall b, sem g b = cprod (factor m n ins O I b) (list_prod (seq 0 m) (seq 0 n))) /\
  forall q r, q < m -> r < n -> here (Z.of_nat q, Z.of_nat r) g (O (q, r)) /\
    exists w, (neighbors g (O (q, r)) = [w] /\ edge_type g (O (q, r)) w = Some SIMPLE /\ vty g w = ZSP) /\ (qubit g w = Qcz (2 * Z.of_nat q) /\ row g w = Qcz (2 * Z.of_nat r)) /\
      (isinp ins (q, r) = true -> neighbors g (I (q, r)) = [w] /\ edge_type g (I (q, r)) w = Some SIMPLE /\ qubit g (I (q, r)) = (Qcz (2 * Z.of_nat q) + frac 4 5)%Qc /\ row g (I (q, r)) = (Qcz (2 * Z.of_nat r) - frac 4 5)%Qc).
Proof.
  intros m n ins. destruct (loop_ok m n ins) as [g0 [G0 LP]]. destruct (LP (m * n) (Nat.le_refl _)) as [g [O [I [A CV]]]]. clear LP. destruct CV as [W NL NX IN CZ CO CI CE CX].
  set (O' := fun p : nat * nat => O (fst p * n + snd p)). set (I' := fun p : nat * nat => I (fst p * n + snd p)).
  set (g' := set_outputs (map O (seq 0 (m * n))) (set_inputs (map I (filter (isin n ins) (seq 0 (m * n)))) g)).
  assert (DM : forall k, k < m * n -> k / n * n + k mod n = k /\ k / n < m /\ k mod n < n).
  { intros k Lk. assert (Ln : n <> 0) by (intros ->; lia). assert (DM := Nat.div_mod k n Ln). assert (Lr := Nat.mod_upper_bound k n Ln). assert (Lq : k / n < m) by (apply Nat.div_lt_upper_bound; lia). lia. }
  assert (MO : goutputs g' = map O' (list_prod (seq 0 m) (seq 0 n))).
  { cbn. rewrite cells_all, map_map. apply map_ext_in. intros k Hk. apply in_seq in Hk. unfold O'. cbn [fst snd]. destruct (DM k) as [-> _]; [lia|auto]. }
  assert (MI : ginputs g' = map I' (filter (isinp ins) (list_prod (seq 0 m) (seq 0 n)))).
  { cbn. rewrite cells_all. assert (FM : forall l, filter (isinp ins) (map (fun k => (k / n, k mod n)) l) = map (fun k => (k / n, k mod n)) (filter (isin n ins) l)).
    { induction l as [|a l IHl]; auto. cbn [map filter]. change (isinp ins (a / n, a mod n)) with (isin n ins a). destruct (isin n ins a); cbn [map]; rewrite IHl; auto. }
    rewrite FM, map_map. apply map_ext_in. intros k Hk. apply filter_In in Hk. destruct Hk as [Hk _]. apply in_seq in Hk. unfold I'. cbn [fst snd]. destruct (DM k) as [-> _]; [lia|auto]. }
  assert (Oinj : forall k k', k < m * n -> k' < m * n -> O k = O k' -> k = k').
  { intros k k' L L' Q. destruct (CO k L) as [_ [_ [_ [_ B]]]]. destruct (CO k' L') as [_ [_ [_ [_ B']]]]. specialize (B k). specialize (B' k). rewrite Nat.eqb_refl in B. rewrite <- Q, B in B'. destruct (Nat.eqb_spec k k'); auto; discriminate. }
  assert (Iinj : forall k k', k < m * n -> k' < m * n -> isin n ins k = true -> isin n ins k' = true -> I k = I k' -> k = k').
  { intros k k' L L' J J' Q. destruct (CI k L J) as [_ [_ [_ [_ B]]]]. destruct (CI k' L' J') as [_ [_ [_ [_ B']]]]. specialize (B k). specialize (B' k). rewrite Nat.eqb_refl in B. rewrite <- Q, B in B'. destruct (Nat.eqb_spec k k'); auto; discriminate. }
  assert (NDm : forall (f : nat -> nat) l, NoDup l -> (forall a b, In a l -> In b l -> f a = f b -> a = b) -> NoDup (map f l)).
  { intros f. induction l as [|a l IHl]; intros ND F; [constructor|]. inversion ND as [|? ? Na ND']; subst. cbn [map]. constructor.
    - intros Q. apply in_map_iff in Q. destruct Q as [c [Q Hc]]. assert (c = a) by (apply F; [right; auto|left; auto|auto]). subst c. contradiction.
    - apply IHl; auto. intros a' b' Ha Hb. apply F; right; auto. }
  exists g', O', I'. split. { unfold cluster_state. rewrite G0, cells_all, A. reflexivity. }
  split; [apply wfg_io; exact W|]. split; [exact NL|]. split; auto.
  split. { cbn. apply NDm; [apply seq_NoDup|]. intros a b Ha Hb. apply in_seq in Ha. apply in_seq in Hb. apply Oinj; lia. }
  split; auto.
  split. { cbn. apply NDm; [apply NoDup_filter, seq_NoDup|]. intros a b Ha Hb. apply filter_In in Ha. apply filter_In in Hb. destruct Ha as [Ha Ja]. destruct Hb as [Hb Jb]. apply in_seq in Ha. apply in_seq in Hb. apply Iinj; auto; lia. }
  split. { cbn. intros v Hi Ho. apply in_map_iff in Hi. apply in_map_iff in Ho. destruct Hi as [k [<- Hk]]. destruct Ho as [k' [Q Hk']]. apply filter_In in Hk. destruct Hk as [Hk J]. apply in_seq in Hk. apply in_seq in Hk'.
    destruct (CI k) as [_ [_ [B _]]]; [lia|auto|]. destruct (CO k') as [_ [_ [B' _]]]; [lia|]. rewrite Q, B in B'. exact (even_off (k / n) (Z.of_nat (k' / n)) 4 (or_intror eq_refl) B'). }
  assert (BD : forall v, In v (vertices g) -> (vty g v = BOUNDARY <-> ~ v < m * n)).
  { intros v Hv. split.
    - intros T L. destruct (CZ v L) as [Z _]. congruence.
    - intros L. apply IN in Hv. destruct Hv as [Q|[[k [Lk ->]]|[k [Lk [J ->]]]]]; [contradiction|apply CO; auto|apply CI; auto]. }
  split. { intros v Hv. change (vty g v = BOUNDARY <-> In v (map I (filter (isin n ins) (seq 0 (m * n)))) \/ In v (map O (seq 0 (m * n)))). split.
    - intros T. apply (BD v Hv) in T. apply IN in Hv. destruct Hv as [Q|[[k [Lk ->]]|[k [Lk [J ->]]]]]; [contradiction|right; apply in_map, in_seq; lia|left; apply in_map, filter_In; split; auto; apply in_seq; lia].
    - intros [H|H]; apply in_map_iff in H; destruct H as [k [<- Hk]]; [apply filter_In in Hk; destruct Hk as [Hk J]|]; apply in_seq in Hk; [apply CI; auto; lia|apply CO; lia]. }
  split.
  { intros b. change (sem g' b) with (sem g b). unfold sem.
    assert (PI : Permutation (internal g) (seq 0 (m * n))).
    { apply nodup_same_perm; [apply NoDup_filter; exact (wf_nd g W)|apply seq_NoDup|]. intros v. unfold internal. rewrite filter_In, in_seq. split.
      - intros [Hv Q]. destruct (lt_dec v (m * n)) as [L|L]; [lia|]. exfalso. apply (BD v Hv) in L. unfold isB in Q. rewrite L in Q. discriminate.
      - intros [_ L]. cbn [plus] in L. split; [apply IN; auto|]. unfold isB. destruct (CZ v L) as [-> _]. reflexivity. }
    rewrite (sumv_perm _ _ PI) by (apply NoDup_filter; exact (wf_nd g W)).
    set (H := fun x : assignment => cprod (fun k => (links m n k x * (if isin n ins k then dlt (x k) (x (I k)) else C1))%C) (seq 0 (m * n))).
    rewrite (sumv_ext _ _ (fun x => (cprod (fun k => dlt (x k) (x (O k))) (seq 0 (m * n)) * H x)%C)).
    2:{ intros x. rewrite CX. unfold H. rewrite <- cprod_mult. apply cprod_ext. intros k _. unfold wcell. ring. }
    rewrite collapse; [|apply seq_NoDup|intros k k' Hk Hk' Q; apply in_seq in Hk; apply in_seq in Hk'; destruct (CO k) as [B _]; lia].
    unfold H. rewrite cells_all, cprod_map. apply cprod_ext. intros k Hk. apply in_seq in Hk. destruct (DM k) as [Ek [Lq Lr]]; [lia|]. unfold factor, links, down, right. fold (isin n ins k).
    assert (X : forall u, u < m * n -> xs O (seq 0 (m * n)) b u = b (O u)) by (intros u L; apply xs_in, in_seq; lia).
    unfold O', I'. cbn [fst snd]. rewrite Ek. replace ((k / n + 1) * n + k mod n) with (k + n) by lia. replace (k / n * n + (k mod n + 1)) with (k + 1) by lia.
    rewrite (X k) by lia. f_equal; [f_equal|].
    - destruct (Nat.ltb_spec (k / n + 1) m) as [L|L]; auto. rewrite X by nia. auto.
    - destruct (Nat.ltb_spec (k mod n + 1) n) as [L|L]; auto. rewrite X by nia. auto.
    - destruct (isin n ins k) eqn:J; auto. rewrite xs_out; auto. intros Q. apply in_seq in Q. destruct (CI k) as [B _]; [lia|exact J|lia]. }
  intros q r Lq Lr. set (k := q * n + r). assert (Lk : k < m * n) by (unfold k; nia). assert (Dk : k / n = q /\ k mod n = r).
  { unfold k. split; [rewrite Nat.div_add_l, Nat.div_small by lia; lia|rewrite Nat.add_comm, Nat.mod_add, Nat.mod_small by lia; auto]. }
  destruct Dk as [Dk1 Dk2]. change (O' (q, r)) with (O k). destruct (CO k Lk) as [B1 [B2 [B3 [B4 B5]]]]. split.
  - split; [apply IN; right; left; eauto|]. intros u Hu. change (lies (Z.of_nat q, Z.of_nat r) g u <-> u = O k). unfold lies. cbn [fst snd]. split.
    + intros [Q1 Q2]. apply IN in Hu. destruct Hu as [L|[[k' [L ->]]|[k' [L [J ->]]]]].
      * exfalso. destruct (CZ u L) as [_ [Z1 _]]. rewrite Z1 in Q1. apply (even_off (u / n) (Z.of_nat q) 0 (or_introl eq_refl)). rewrite <- Q1. replace (frac 0 5) with 0%Qc by (apply Qc_is_canon; reflexivity). ring.
      * destruct (CO k' L) as [_ [_ [Z1 [Z2 _]]]]. rewrite Z1 in Q1. rewrite Z2 in Q2. apply even_inj in Q1. apply even_inj in Q2. destruct (DM k' L) as [Z3 _]. f_equal. unfold k. nia.
      * exfalso. destruct (CI k' L J) as [_ [_ [Z1 _]]]. rewrite Z1 in Q1. exact (even_off (k' / n) (Z.of_nat q) 4 (or_intror eq_refl) Q1).
    + intros ->. rewrite B3, B4, Dk1, Dk2. split; reflexivity.
  - exists k. assert (ONE : forall s, (forall u, edge_type g s u = if Nat.eqb u k then Some SIMPLE else None) -> neighbors g s = [k] /\ edge_type g s k = Some SIMPLE).
    { intros s Hs. split; [|rewrite Hs, Nat.eqb_refl; auto]. apply single; [apply neighbors_nd; auto|]. intros u. rewrite neighbors_spec, Hs. destruct (Nat.eqb_spec u k); split; congruence. }
    destruct (ONE (O k) B5) as [N1 N2]. destruct (CZ k Lk) as [Z1 [Z2 Z3]]. rewrite Dk1 in Z2. rewrite Dk2 in Z3. split; [split; [exact N1|split; [exact N2|exact Z1]]|]. split; [split; [exact Z2|exact Z3]|].
    intros J. change (I' (q, r)) with (I k). assert (J' : isin n ins k = true) by (unfold isin; rewrite Dk1, Dk2; exact J). destruct (CI k Lk J') as [_ [_ [Q1 [Q2 Q3]]]]. rewrite Dk1 in Q1. rewrite Dk2 in Q2.
    destruct (ONE (I k) Q3) as [N3 N4]. split; [exact N3|]. split; [exact N4|]. split; [exact Q1|exact Q2].
Qed.
Lemma filter_keep : forall (v : nat) l, ~ In v l -> filter (fun u => negb (Nat.eqb u v)) l = l.
Proof. intros v. induction l as [|a l IH]; intros H; auto. cbn [filter]. destruct (Nat.eqb_spec a v) as [->|D]; [exfalso; apply H; left; auto|]. cbn [negb]. rewrite IH; auto. intros Q; apply H; right; auto. Qed.
Theorem cluster_measure : forall m n ins q r p, q < m -> r < n -> exists g g' v, cluster_state m n ins = Ok g /\ here (Z.of_nat q, Z.of_nat r) g v /\ In v (goutputs g) /\
  measure (Z.of_nat q, Z.of_nat r) ZSP p g = Ok g' /\ ginputs g' = ginputs g /\ goutputs g' = filter (fun u => negb (Nat.eqb u v)) (goutputs g) /\
  forall b, sem g' b = (sem g (upd b v false) + cexp p * sem g (upd b v true))%C.
Proof.
  intros m n ins q r p Lq Lr. destruct (cluster_ok m n ins) as [g [O [I [A [W [NL [GO [ND [_ [_ [_ [BD [_ Q]]]]]]]]]]]]]. destruct (Q q r Lq Lr) as [H _]. set (v := O (q, r)) in *.
  assert (Hv : In v (goutputs g)) by (rewrite GO; apply in_map, in_prod; apply in_seq; lia). assert (T : vty g v = BOUNDARY) by (apply BD; [apply H|auto]).
  destruct (in_split _ _ Hv) as [l1 [l2 E]]. assert (ND' := ND). rewrite E in ND'. apply NoDup_remove_2 in ND'. rewrite in_app_iff in ND'.
  destruct (measure_z_ok (Z.of_nat q, Z.of_nat r) p g v l1 l2 W NL H T E) as [g' [M [_ [_ [MI [MO [_ S]]]]]]]; [tauto|].
  exists g, g', v. split; auto. split; auto. split; auto. split; auto. split; auto. split; auto. rewrite MO, E, filter_app. cbn [filter]. rewrite Nat.eqb_refl. cbn [negb]. rewrite !filter_keep by tauto. auto.
Qed.
Theorem cluster_pauli_z : forall m n ins q r, q < m -> r < n -> exists g g' v, cluster_state m n ins = Ok g /\ here (Z.of_nat q, Z.of_nat r) g v /\ In v (goutputs g) /\
  apply_pauli (Z.of_nat q, Z.of_nat r) ZSP 1 g = Ok g' /\ ginputs g' = ginputs g /\ goutputs g' = goutputs g /\ forall b, sem g' b = (sgn (b v) * sem g b)%C.
Proof.
  intros m n ins q r Lq Lr. destruct (cluster_ok m n ins) as [g [O [I [A [W [NL [GO [ND [_ [_ [_ [BD [_ Q]]]]]]]]]]]]]. destruct (Q q r Lq Lr) as [H [w [[NB [EW TW]] _]]]. set (v := O (q, r)) in *.
  assert (Hv : In v (goutputs g)) by (rewrite GO; apply in_map, in_prod; apply in_seq; lia). assert (T : vty g v = BOUNDARY) by (apply BD; [apply H|auto]).
  destruct (pauli_zz (Z.of_nat q, Z.of_nat r) g v w W NL H T Hv NB EW TW) as [g' [M [_ [_ [MI [MO S]]]]]]. exists g, g', v. auto 10.
Qed.
Theorem cluster_measure_x : forall m n ins q r p, q < m -> r < n -> exists g g' v, cluster_state m n ins = Ok g /\ here (Z.of_nat q, Z.of_nat r) g v /\ In v (goutputs g) /\
  measure (Z.of_nat q, Z.of_nat r) XSP p g = Ok g' /\ ginputs g' = ginputs g /\ goutputs g' = filter (fun u => negb (Nat.eqb u v)) (goutputs g) /\
  forall b, sem g' b = (sq2p (-1) * ((C1 + cexp p) * sem g (upd b v false) + (C1 - cexp p) * sem g (upd b v true)))%C.
Proof.
  intros m n ins q r p Lq Lr. destruct (cluster_ok m n ins) as [g [O [I [A [W [NL [GO [ND [_ [_ [_ [BD [_ Q]]]]]]]]]]]]]. destruct (Q q r Lq Lr) as [H [w [[NB _] _]]]. set (v := O (q, r)) in *.
  assert (Hv : In v (goutputs g)) by (rewrite GO; apply in_map, in_prod; apply in_seq; lia). assert (T : vty g v = BOUNDARY) by (apply BD; [apply H|auto]).
  destruct (in_split _ _ Hv) as [l1 [l2 E]]. assert (ND' := ND). rewrite E in ND'. apply NoDup_remove_2 in ND'. rewrite in_app_iff in ND'.
  destruct (measure_x_ok (Z.of_nat q, Z.of_nat r) p g v w l1 l2 W NL H T NB E) as [g' [M [_ [_ [MI [MO [_ S]]]]]]]; [tauto|].
  exists g, g', v. split; auto. split; auto. split; auto. split; auto. split; auto. split; auto. rewrite MO, E, filter_app. cbn [filter]. rewrite Nat.eqb_refl. cbn [negb]. rewrite !filter_keep by tauto. auto.
Qed.
Theorem cluster_pauli_x : forall m n ins q r, q < m -> r < n -> exists g g' v, cluster_state m n ins = Ok g /\ here (Z.of_nat q, Z.of_nat r) g v /\ In v (goutputs g) /\
  apply_pauli (Z.of_nat q, Z.of_nat r) XSP 1 g = Ok g' /\ ginputs g' = ginputs g /\ goutputs g' = goutputs g /\ forall b, sem g' b = sem g (upd b v (negb (b v))).
Proof.
  intros m n ins q r Lq Lr. destruct (cluster_ok m n ins) as [g [O [I [A [W [NL [GO [ND [_ [_ [_ [BD [_ Q]]]]]]]]]]]]]. destruct (Q q r Lq Lr) as [H [w [[NB [EW TW]] _]]]. set (v := O (q, r)) in *.
  assert (Hv : In v (goutputs g)) by (rewrite GO; apply in_map, in_prod; apply in_seq; lia). assert (T : vty g v = BOUNDARY) by (apply BD; [apply H|auto]).
  destruct (pauli_xz (Z.of_nat q, Z.of_nat r) g v w W NL H T Hv NB EW (or_introl TW)) as [g' [M [_ [_ [MI [MO S]]]]]]. exists g, g', v. auto 10.
Qed.

(** ** The stabilizers of the cluster state *)
Lemma cprod_one : forall A (f : A -> C) l c, NoDup l -> In c l -> (forall p, In p l -> p <> c -> f p = C1) -> cprod f l = f c.
Proof.
  intros A f. induction l as [|a l IH]; intros c ND H F; [contradiction|]. inversion ND as [|? ? Na ND']; subst. cbn [cprod]. destruct H as [->|H].
  - rewrite (cprod_1 _ f l); [ring|]. intros p Hp. apply F; [right; auto|]. intros ->. contradiction.
  - rewrite (IH c ND' H) by (intros p Hp; apply F; right; auto). rewrite (F a) by (try (left; reflexivity); intros ->; contradiction). ring.
Qed.
Lemma nodup_map_inj : forall A (f : A -> nat) l a c, NoDup (map f l) -> In a l -> In c l -> f a = f c -> a = c.
Proof.
  intros A f. induction l as [|x l IH]; intros a c ND Ha Hc E; [contradiction|]. cbn [map] in ND. inversion ND as [|? ? Nx ND']; subst.
  destruct Ha as [->|Ha]; destruct Hc as [->|Hc]; auto; exfalso; apply Nx; [rewrite E|rewrite <- E]; apply in_map; auto.
Qed.
Lemma places_nd : forall m n, NoDup (list_prod (seq 0 m) (seq 0 n)).
Proof.
  intros m n. rewrite cells_all. apply NoDup_map_inv with (f := fun p : nat * nat => fst p * n + snd p). rewrite map_map. cbn [fst snd].
  rewrite (map_ext_in _ (fun k => k)); [rewrite map_id; apply seq_NoDup|]. intros k Hk. apply in_seq in Hk. assert (Ln : n <> 0) by (intros ->; lia). assert (DM := Nat.div_mod k n Ln). lia.
Qed.
Lemma sgn_flip_l : forall x y, sgn (negb x && y) = (sgn (x && y) * sgn y)%C.
Proof. intros [] []; cbn; ring. Qed.
Lemma sgn_flip_r : forall x y, sgn (x && negb y) = (sgn (x && y) * sgn x)%C.
Proof. intros [] []; cbn; ring. Qed.
Definition peqb (p c : nat * nat) : bool := Nat.eqb (fst p) (fst c) && Nat.eqb (snd p) (snd c).
Lemma peqb_spec : forall p c, reflect (p = c) (peqb p c).
Proof. intros [a b] [c d]. unfold peqb. cbn [fst snd]. destruct (Nat.eqb_spec a c) as [->|D]; [destruct (Nat.eqb_spec b d) as [->|D]|]; constructor; congruence. Qed.
Theorem cluster_stab : forall m n ins, exists g O, cluster_state m n ins = Ok g /\ goutputs g = map O (list_prod (seq 0 m) (seq 0 n)) /\
  forall q r, q < m -> r < n -> isinp ins (q, r) = false -> forall b, let v := O (q, r) in
    sem g (upd b v (negb (b v))) = ((if Nat.ltb (q + 1) m then sgn (b (O ((q + 1)%nat, r))) else C1) * (if Nat.ltb 0 q then sgn (b (O ((q - 1)%nat, r))) else C1) *
      (if Nat.ltb (r + 1) n then sgn (b (O (q, (r + 1)%nat))) else C1) * (if Nat.ltb 0 r then sgn (b (O (q, (r - 1)%nat))) else C1) * sem g b)%C.
Proof.
  intros m n ins. destruct (cluster_ok m n ins) as [g [O [I [A [W [NL [GO [ND [GI [_ [DJ [_ [SM _]]]]]]]]]]]]]. exists g, O. split; auto. split; auto. intros q r Lq Lr J b v.
  set (L := list_prod (seq 0 m) (seq 0 n)) in *. assert (IL : forall x y, x < m -> y < n -> In (x, y) L) by (intros; apply in_prod; apply in_seq; lia).
  assert (LI : forall x y, In (x, y) L -> x < m /\ y < n) by (intros x y Q; apply in_prod_iff in Q; rewrite !in_seq in Q; lia).
  assert (NDL : NoDup L) by apply places_nd.
  set (b' := upd b v (negb (b v))). assert (Bo : forall p, In p L -> b' (O p) = if peqb p (q, r) then negb (b (O p)) else b (O p)).
  { intros p Hp. unfold b'. destruct (peqb_spec p (q, r)) as [->|D]; [apply upd_same|]. apply upd_other. intros Q. apply D. rewrite GO in ND. apply (nodup_map_inj _ O L); auto. }
  assert (Bi : forall p, In p L -> isinp ins p = true -> b' (I p) = b (I p)).
  { intros p Hp Q. apply upd_other. intros E. apply (DJ (I p)); [rewrite GI; apply in_map, filter_In; auto|rewrite E, GO; apply in_map; auto]. }
  set (f1 := fun p : nat * nat => if peqb p (q, r) then (if Nat.ltb (q + 1) m then sgn (b (O ((q + 1)%nat, r))) else C1) else C1).
  set (f2 := fun p : nat * nat => if peqb ((fst p + 1)%nat, snd p) (q, r) then sgn (b (O p)) else C1).
  set (f3 := fun p : nat * nat => if peqb p (q, r) then (if Nat.ltb (r + 1) n then sgn (b (O (q, (r + 1)%nat))) else C1) else C1).
  set (f4 := fun p : nat * nat => if peqb (fst p, (snd p + 1)%nat) (q, r) then sgn (b (O p)) else C1).
  assert (STEP : forall p, In p L -> factor m n ins O I b' p = (f1 p * f2 p * f3 p * f4 p * factor m n ins O I b p)%C).
  { intros [x y] Hp. destruct (LI x y Hp) as [Lx Ly]. unfold factor.
    assert (P1 : (if Nat.ltb (x + 1) m then sq2p (-1) * sgn (b' (O (x, y)) && b' (O ((x + 1)%nat, y))) else C1)%C = (f1 (x, y) * f2 (x, y) * (if Nat.ltb (x + 1) m then sq2p (-1) * sgn (b (O (x, y)) && b (O ((x + 1)%nat, y))) else C1))%C).
    { unfold f1, f2. cbn [fst snd]. destruct (Nat.ltb_spec (x + 1) m) as [Q|Q].
      - rewrite (Bo (x, y)), (Bo (x + 1, y)) by auto. destruct (peqb_spec (x, y) (q, r)) as [E|D].
        + injection E as -> ->. destruct (peqb_spec (q + 1, r) (q, r)) as [E'|_]; [injection E'; lia|]. rewrite (proj2 (Nat.ltb_lt (q + 1) m) Q), sgn_flip_l. ring.
        + destruct (peqb_spec (x + 1, y) (q, r)) as [E'|_]; [rewrite sgn_flip_r|]; ring.
      - destruct (peqb_spec (x + 1, y) (q, r)) as [E'|_]; [injection E'; lia|]. destruct (peqb_spec (x, y) (q, r)) as [E|D]; [injection E as -> ->; rewrite (proj2 (Nat.ltb_ge (q + 1) m) Q)|]; ring. }
    assert (P2 : (if Nat.ltb (y + 1) n then sq2p (-1) * sgn (b' (O (x, y)) && b' (O (x, (y + 1)%nat))) else C1)%C = (f3 (x, y) * f4 (x, y) * (if Nat.ltb (y + 1) n then sq2p (-1) * sgn (b (O (x, y)) && b (O (x, (y + 1)%nat))) else C1))%C).
    { unfold f3, f4. cbn [fst snd]. destruct (Nat.ltb_spec (y + 1) n) as [Q|Q].
      - rewrite (Bo (x, y)), (Bo (x, y + 1)) by auto. destruct (peqb_spec (x, y) (q, r)) as [E|D].
        + injection E as -> ->. destruct (peqb_spec (q, r + 1) (q, r)) as [E'|_]; [injection E'; lia|]. rewrite (proj2 (Nat.ltb_lt (r + 1) n) Q), sgn_flip_l. ring.
        + destruct (peqb_spec (x, y + 1) (q, r)) as [E'|_]; [rewrite sgn_flip_r|]; ring.
      - destruct (peqb_spec (x, y + 1) (q, r)) as [E'|_]; [injection E'; lia|]. destruct (peqb_spec (x, y) (q, r)) as [E|D]; [injection E as -> ->; rewrite (proj2 (Nat.ltb_ge (r + 1) n) Q)|]; ring. }
    rewrite P1, P2. change (existsb (fun c : nat * nat => Nat.eqb (fst c) x && Nat.eqb (snd c) y) ins) with (isinp ins (x, y)). destruct (isinp ins (x, y)) eqn:Jp; [|ring].
    rewrite (Bi (x, y)), (Bo (x, y)) by auto. destruct (peqb_spec (x, y) (q, r)) as [E|D]; [congruence|]. ring. }
  rewrite !SM. rewrite (cprod_ext _ _ _ _ STEP). rewrite !cprod_mult. f_equal. f_equal; [f_equal; [f_equal|]|].
  - rewrite (cprod_one _ f1 L (q, r)) by (auto; intros p _ D; unfold f1; destruct (peqb_spec p (q, r)); try contradiction; auto). unfold f1. destruct (peqb_spec (q, r) (q, r)); [auto|contradiction].
  - destruct q as [|q].
    + rewrite (cprod_1 _ f2 L); auto. intros p _. unfold f2. destruct (peqb_spec (fst p + 1, snd p) (0, r)) as [E|_]; auto. injection E; lia.
    + rewrite (cprod_one _ f2 L (q, r)); auto; [|apply IL; lia|].
      * unfold f2. cbn [fst snd]. replace (q + 1) with (S q) by lia. replace (S q - 1) with q by lia. destruct (peqb_spec (S q, r) (S q, r)); [auto|contradiction].
      * intros [x y] _ D. unfold f2. cbn [fst snd]. destruct (peqb_spec (x + 1, y) (S q, r)) as [E|_]; auto. exfalso. apply D. injection E as E1 E2. f_equal; lia.
  - rewrite (cprod_one _ f3 L (q, r)) by (auto; intros p _ D; unfold f3; destruct (peqb_spec p (q, r)); try contradiction; auto). unfold f3. destruct (peqb_spec (q, r) (q, r)); [auto|contradiction].
  - destruct r as [|r].
    + rewrite (cprod_1 _ f4 L); auto. intros p _. unfold f4. destruct (peqb_spec (fst p, snd p + 1) (q, 0)) as [E|_]; auto. injection E; lia.
    + rewrite (cprod_one _ f4 L (q, r)); auto; [|apply IL; lia|].
      * unfold f4. cbn [fst snd]. replace (r + 1) with (S r) by lia. replace (S r - 1) with r by lia. destruct (peqb_spec (q, S r) (q, S r)); [auto|contradiction].
      * intros [x y] _ D. unfold f4. cbn [fst snd]. destruct (peqb_spec (x, y + 1) (q, S r)) as [E|_]; auto. exfalso. apply D. injection E as E1 E2. f_equal; lia.
Qed.

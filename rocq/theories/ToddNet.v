(** Proofs about ToddModel: parity_network terminates and realises every parity. *)
From Coq Require Import ZArith List Bool Arith Lia.
From Verif Require Import Base LinModel LinProofs LinAlg ToddModel ToddSig ToddPoly.
Import ListNotations.
Open Scope nat_scope.

(** ** Specification: after the CNOTs [c] row i of [cnots_mat n c] is the parity on qubit i *)
Definition realised (n : nat) (p : list bool) (c : list (nat * nat)) : Prop :=
  exists c1 c2 i, c = c1 ++ c2 /\ i < n /\ row (cnots_mat n c1) i = p.
Definition cnok (n : nat) (c : list (nat * nat)) : Prop := Forall (opok n) c.
Lemma cnots_mat_app : forall n a b, cnots_mat n (a ++ b) = fold_left (fun m c => row_add (fst c) (snd c) m) b (cnots_mat n a).
Proof. intros n a b. unfold cnots_mat. apply fold_left_app. Qed.
Lemma cnots_track : forall n c, cnots_mat n c = track_x row_add c (mat_id n). Proof. reflexivity. Qed.
Lemma cnots_rect : forall n c, cnok n c -> rect n n (cnots_mat n c).
Proof. intros n c H. rewrite cnots_track. apply track_rect; auto. apply id_shape. Qed.
Lemma realised_app : forall n p c d, realised n p c -> realised n p (c ++ d).
Proof. intros n p c d [c1 [c2 [i [-> [Hi E]]]]]. exists c1, (c2 ++ d), i. split; [rewrite app_assoc; reflexivity|auto]. Qed.

(** [y] expresses the parity [p] in the rows of [A] *)
Definition expr (n : nat) (y : list bool) (A : mat) (p : list bool) : Prop :=
  length y = n /\ length p = n /\ forall k, k < n -> bit p k = xsum (fun i => bit y i && get A i k) n.
Lemma pn_add_len : forall i j y, length (pn_add i j y) = length y.
Proof. intros. apply upd_length. Qed.
Lemma pn_add_bit : forall i j y k, j < length y -> bit (pn_add i j y) k = if Nat.eqb k j then xorb (bit y i) (bit y j) else bit y k.
Proof. intros i j y k H. unfold bit, pn_add. rewrite nth_upd, (proj2 (Nat.ltb_lt _ _) H), andb_true_r. reflexivity. Qed.
Lemma xsum_delta' : forall (a : nat) (v : bool) n, a < n -> xsum (fun k => Nat.eqb k a && v) n = v.
Proof. intros a v n H. rewrite (xsum_delta a (fun _ => v)), (proj2 (Nat.ltb_lt _ _) H). reflexivity. Qed.
Lemma expr_cnot : forall n y A p i j, rect n n A -> i < n -> j < n -> i <> j -> expr n y A p -> expr n (pn_add i j y) (row_add j i A) p.
Proof.
  intros n y A p i j R Hi Hj N [L1 [L2 E]]. split; [rewrite pn_add_len; exact L1|]. split; [exact L2|]. intros k Hk. rewrite (E k Hk).
  rewrite (xsum_ext (fun t => bit (pn_add i j y) t && get (row_add j i A) t k)
    (fun t => xorb (bit y t && get A t k) (xorb (Nat.eqb t j && (bit y i && get A j k)) (Nat.eqb t i && (bit y i && get A j k))))).
  - rewrite !xsum_xor, !xsum_delta' by auto. rewrite xorb_nilpotent, xorb_false_r. reflexivity.
  - intros t Ht. rewrite pn_add_bit by lia. rewrite (get_row_add n n) by auto. 
    destruct (Nat.eqb_spec t j) as [->|Nj].
    + destruct (Nat.eqb_spec j i); [lia|]. cbn [andb]. destruct (bit y i), (bit y j), (get A j k); reflexivity.
    + destruct (Nat.eqb_spec t i) as [->|Ni]; cbn [andb]; [destruct (bit y i), (get A i k), (get A j k); reflexivity|destruct (bit y t), (get A t k); reflexivity].
Qed.
Lemma expr_unit : forall n y A p i, rect n n A -> i < n -> expr n y A p -> bit y i = true -> (forall k, k < n -> k <> i -> bit y k = false) -> row A i = p.
Proof.
  intros n y A p i R Hi [L1 [L2 E]] Yi Yk. apply (bit_ext n); [apply (rect_row n n); auto|auto|]. intros k Hk. rewrite (E k Hk).
  rewrite (xsum_one _ n i Hi); [rewrite Yi; reflexivity|]. intros t Ht Nt. rewrite (Yk t Ht Nt). reflexivity.
Qed.
Lemma expr_zero : forall n y A p, expr n y A p -> (forall k, k < n -> bit y k = false) -> existsb (fun b => b) p = false.
Proof.
  intros n y A p [L1 [L2 E]] Z. destruct (existsb (fun b => b) p) eqn:X; auto. apply existsb_exists in X. destruct X as [b [H ->]].
  destruct (In_nth _ _ false H) as [k [Hk Ek]]. rewrite L2 in Hk. assert (B := E k Hk). unfold bit in B at 1. rewrite Ek in B.
  rewrite xsum_zero in B; [discriminate|]. intros t Ht. rewrite (Z t Ht). reflexivity.
Qed.
Lemma expr_id : forall n p, length p = n -> expr n p (mat_id n) p.
Proof.
  intros n p L. split; auto. split; auto. intros k Hk. rewrite (xsum_one _ n k Hk).
  - rewrite id_get, Nat.eqb_refl, andb_true_r by auto. reflexivity.
  - intros t Ht Nt. rewrite id_get by auto. destruct (Nat.eqb_spec t k); [lia|apply andb_false_r].
Qed.

(** ** Invariants of the stack *)
Definition eS (e : entry) : list (list bool) := fst (fst e).
Definition eI (e : entry) : list nat := snd (fst e).
Definition eT (e : entry) : option nat := snd e.
Section Net.
  Variables (n : nat) (P : list (list bool)).
  Definition lens (e : entry) : Prop := forall y, In y (eS e) -> length y = n.
  (** entries below the group being worked on *)
  Definition lowok (e : entry) : Prop := exists i, eT e = Some i /\ i < n /\ ~ In i (eI e) /\ (forall k, In k (eI e) -> k < n) /\ length (eI e) <= n /\ lens e /\
    forall y, In y (eS e) -> bit y i = true /\ forall k, k < n -> ~ In k (eI e) -> k <> i -> bit y k = false.
  Fixpoint chain (q : list entry) : Prop :=
    match q with
    | [] => True
    | e :: q => lowok e /\ (forall e', In e' q -> forall k, In k (eI e) \/ eT e = Some k -> In k (eI e')) /\ chain q
    end.
  (** entries of the group: all with target i, zero outside B *)
  Definition grpok (B : list nat) (i : nat) (e : entry) : Prop := eT e = Some i /\ length (eI e) <= n /\ incl (eI e) B /\ ~ In i (eI e) /\ lens e /\
    (forall y, In y (eS e) -> bit y i = true /\ forall k, k < n -> ~ In k B -> bit y k = false) /\
    (forall y y', In y (eS e) -> In y' (eS e) -> forall k, k < n -> ~ In k (eI e) -> k <> i -> bit y k = bit y' k).
  Definition below (B : list nat) (q : list entry) : Prop := chain q /\ forall e', In e' q -> incl B (eI e').
  Definition group (B : list nat) (i : nat) (q : list entry) : Prop :=
    exists G L, q = G ++ L /\ Forall (grpok B i) G /\ below B L.
  Definition basis (B : list nat) (i : nat) : Prop := i < n /\ In i B /\ forall k, In k B -> k < n.
  Definition pend (c : list (nat * nat)) (q : list entry) : Prop :=
    forall p, In p P -> realised n p c \/ exists e y, In e q /\ eI e <> [] /\ In y (eS e) /\ expr n y (cnots_mat n c) p.
  Definition wt (e : entry) : nat := match eS e with [] => 1 | s => 2 * ((2 * length s - 1) * (n + 1) + length (eI e)) end.
  Fixpoint measure (q : list entry) : nat := match q with [] => 0 | e :: q => wt e + measure q end.

  Lemma lens_ent : forall i j e, lens e -> lens (pn_ent (pn_add i j) e).
  Proof. intros i j [[s is] t] H y Hy. simpl in Hy. apply in_map_iff in Hy. destruct Hy as [y0 [<- Hy]]. rewrite pn_add_len. apply H. exact Hy. Qed.
  Lemma eI_ent : forall f e, eI (pn_ent f e) = eI e. Proof. intros f [[s is] t]. reflexivity. Qed.
  Lemma eT_ent : forall f e, eT (pn_ent f e) = eT e. Proof. intros f [[s is] t]. reflexivity. Qed.
  Lemma eS_ent : forall f e, eS (pn_ent f e) = map f (eS e). Proof. intros f [[s is] t]. reflexivity. Qed.
  Lemma wt_ent : forall f e, wt (pn_ent f e) = wt e.
  Proof. intros f e. unfold wt. rewrite eS_ent, eI_ent. destruct (eS e) as [|y s]; cbn [map length]; auto. rewrite map_length. reflexivity. Qed.
  Lemma measure_ent : forall f q, measure (map (pn_ent f) q) = measure q.
  Proof. intros f. induction q as [|e q IH]; auto. cbn [map measure]. rewrite wt_ent, IH. reflexivity. Qed.
  (** a CNOT with control j in B and target i in B *)
  Lemma low_cnot : forall i j e, In i (eI e) -> In j (eI e) -> lowok e -> lowok (pn_ent (pn_add i j) e).
  Proof.
    intros i j e Ii Ij [t [E1 [Ht [Nt [Hk [Ln [Le Y]]]]]]]. exists t. rewrite eI_ent, eT_ent. repeat (split; [auto; apply lens_ent; auto|]).
    intros y Hy. rewrite eS_ent in Hy. apply in_map_iff in Hy. destruct Hy as [y0 [<- Hy]]. destruct (Y y0 Hy) as [Y1 Y2]. assert (Lj : j < length y0) by (rewrite (Le y0 Hy); auto). split.
    - rewrite pn_add_bit by auto. destruct (Nat.eqb_spec t j) as [->|_]; [contradiction|exact Y1].
    - intros k Kn Ki Kt. rewrite pn_add_bit by auto. destruct (Nat.eqb_spec k j) as [->|_]; [contradiction|apply Y2; auto].
  Qed.
  Lemma chain_cnot : forall i j q, chain q -> (forall e, In e q -> In i (eI e) /\ In j (eI e)) -> chain (map (pn_ent (pn_add i j)) q).
  Proof.
    intros i j. induction q as [|e q IH]; intros H B; [exact I|]. destruct H as [H1 [H2 H3]]. destruct (B e (or_introl eq_refl)) as [B1 B2].
    cbn [map chain]. split; [apply low_cnot; auto|]. split; [|apply IH; auto; intros e' He; apply B; right; auto].
    intros e' He k Hk. apply in_map_iff in He. destruct He as [e0 [<- He]]. rewrite !eI_ent, eT_ent in *. apply H2; auto.
  Qed.
  Lemma below_cnot : forall B i j q, In i B -> In j B -> below B q -> below B (map (pn_ent (pn_add i j)) q).
  Proof.
    intros B i j q Hi Hj [H1 H2]. split; [apply chain_cnot; auto; intros e He; split; apply (H2 e He); auto|].
    intros e' He. apply in_map_iff in He. destruct He as [e0 [<- He]]. rewrite eI_ent. apply H2, He.
  Qed.
  Lemma grp_cnot : forall B i j e, basis B i -> In j B -> i <> j -> grpok B i e -> grpok B i (pn_ent (pn_add i j) e).
  Proof.
    intros B i j e [Bi [Bi2 Bn]] Hj N [E1 [E2 [E3 [E4 [E5 [E6 E7]]]]]]. unfold grpok. rewrite eI_ent, eT_ent. split; auto. split; auto. split; auto. split; auto. split; [apply lens_ent; auto|].
    assert (LJ : forall y, In y (eS e) -> j < length y) by (intros y Hy; rewrite (E5 y Hy); auto). split.
    - intros y Hy. rewrite eS_ent in Hy. apply in_map_iff in Hy. destruct Hy as [y0 [<- Hy]]. destruct (E6 y0 Hy) as [Y1 Y2]. split.
      + rewrite pn_add_bit by auto. destruct (Nat.eqb_spec i j); [contradiction|exact Y1].
      + intros k Kn Kb. rewrite pn_add_bit by auto. destruct (Nat.eqb_spec k j) as [->|_]; [contradiction|auto].
    - intros y y' Hy Hy' k Kn Ki Kt. rewrite eS_ent in Hy, Hy'. apply in_map_iff in Hy. destruct Hy as [y0 [<- Hy]]. apply in_map_iff in Hy'. destruct Hy' as [y1 [<- Hy']].
      rewrite !pn_add_bit by auto. destruct (Nat.eqb_spec k j) as [->|_]; [|apply E7; auto].
      rewrite (proj1 (E6 y0 Hy)), (proj1 (E6 y1 Hy')). f_equal. apply E7; auto.
  Qed.
  Lemma chain_lens : forall q e, chain q -> In e q -> lens e.
  Proof. induction q as [|e0 q IH]; intros e H Hi; [destruct Hi|]. destruct H as [H1 [_ H3]]. destruct Hi as [->|Hi]; [|apply IH; auto]. destruct H1 as [t H1]. apply H1. Qed.
  Lemma group_lens : forall B i q e, group B i q -> In e q -> lens e.
  Proof.
    intros B i q e [G [L [-> [FG [CL _]]]]] He. apply in_app_iff in He. destruct He as [He|He]; [|eapply chain_lens; eauto].
    rewrite Forall_forall in FG. apply FG, He.
  Qed.
  Lemma group_cnot : forall B i j q, basis B i -> In j B -> i <> j -> group B i q -> group B i (map (pn_ent (pn_add i j)) q).
  Proof.
    intros B i j q HB Hj N [G [L [-> [FG BL]]]]. exists (map (pn_ent (pn_add i j)) G), (map (pn_ent (pn_add i j)) L). rewrite map_app. split; auto. split.
    - rewrite Forall_forall in *. intros e He. apply in_map_iff in He. destruct He as [e0 [<- He]]. apply grp_cnot; auto.
    - apply below_cnot; auto. apply HB.
  Qed.
  Lemma pend_cnot : forall c q i j, cnok n c -> i < n -> j < n -> i <> j -> (forall e, In e q -> lens e) -> pend c q -> pend (c ++ [(j, i)]) (map (pn_ent (pn_add i j)) q).
  Proof.
    intros c q i j OK Hi Hj N LE H p Hp. destruct (H p Hp) as [R|[e [y [He [NI [Hy E]]]]]]; [left; apply realised_app, R|]. right.
    exists (pn_ent (pn_add i j) e), (pn_add i j y). split; [apply in_map; exact He|]. rewrite eI_ent, eS_ent. split; auto. split; [apply in_map; exact Hy|].
    rewrite cnots_mat_app. cbn [fold_left fst snd]. apply expr_cnot; auto. apply cnots_rect, OK.
  Qed.

  (** ** The inner loop *)
  Definition allone (i : nat) (s : list (list bool)) (j : nat) : bool := negb (Nat.eqb j i) && forallb (fun y => nth j y false) s.
  Lemma filter_len_le : forall (f g : nat -> bool) l, (forall x, In x l -> g x = true -> f x = true) -> length (filter g l) <= length (filter f l).
  Proof.
    intros f g. induction l as [|x l IH]; intros H; auto. cbn [filter]. assert (X := H x (or_introl eq_refl)). assert (Y := IH (fun z Hz => H z (or_intror Hz))).
    destruct (g x); [rewrite X by auto; simpl; lia|destruct (f x); simpl; lia].
  Qed.
  Lemma filter_len_lt : forall (f g : nat -> bool) l j, In j l -> f j = true -> g j = false -> (forall x, In x l -> g x = true -> f x = true) -> length (filter g l) < length (filter f l).
  Proof.
    intros f g. induction l as [|x l IH]; intros j Hj F G H; [destruct Hj|]. cbn [filter]. assert (X := H x (or_introl eq_refl)). destruct Hj as [->|Hj].
    - rewrite F, G. simpl. apply Nat.lt_succ_r. apply filter_len_le. intros z Hz. apply H. right. exact Hz.
    - assert (Y := IH j Hj F G (fun z Hz => H z (or_intror Hz))). destruct (g x); [rewrite X by auto; simpl; lia|destruct (f x); simpl; lia].
  Qed.
  Lemma inner_ok : forall B i is fuel s q c, basis B i -> s <> [] -> length (filter (allone i s) (seq 0 n)) <= fuel ->
    grpok B i (s, is, Some i) -> group B i q -> cnok n c -> pend c ((s, is, Some i) :: q) ->
    exists s' q' c', pn_inner fuel n i s q c = Ok (s', q', c') /\ grpok B i (s', is, Some i) /\ group B i q' /\ cnok n c' /\ pend c' ((s', is, Some i) :: q') /\
      length s' = length s /\ measure q' = measure q /\ (forall j, j < n -> allone i s' j = false) /\ exists d, c' = c ++ d.
  Proof.
    intros B i is fuel. induction fuel as [|f IH]; intros s q c HB NE F G GQ OK PE.
    - assert (Z : find (allone i s) (seq 0 n) = None).
      { destruct (find (allone i s) (seq 0 n)) as [j|] eqn:E; auto. apply find_some in E. destruct (filter (allone i s) (seq 0 n)) as [|z l] eqn:Ef; [|simpl in F; lia].
        assert (X : In j []) by (rewrite <- Ef; apply filter_In; exact E). destruct X. }
      cbn [pn_inner]. change (find _ (seq 0 n)) with (find (allone i s) (seq 0 n)). rewrite Z. exists s, q, c. do 7 (split; [auto; fail || auto|]). split; [|exists []; rewrite app_nil_r; reflexivity].
      intros j Hj. apply (find_none _ _ Z). apply in_seq. lia.
    - cbn [pn_inner]. change (find _ (seq 0 n)) with (find (allone i s) (seq 0 n)). destruct (find (allone i s) (seq 0 n)) as [j|] eqn:E.
      2: { exists s, q, c. do 7 (split; [auto; fail || auto|]). split; [|exists []; rewrite app_nil_r; reflexivity].
           intros j Hj. apply (find_none _ _ E). apply in_seq. lia. }
      apply find_some in E. destruct E as [Hj Aj]. assert (Jn : j < n) by (apply in_seq in Hj; lia).
      assert (Aj' := Aj). unfold allone in Aj'. apply andb_true_iff in Aj'. destruct Aj' as [Ji FA]. apply negb_true_iff, Nat.eqb_neq in Ji. rewrite forallb_forall in FA.
      assert (G0 := G). destruct G0 as [E1 [E2 [E3 [E4 [E5 [E6 E7]]]]]]. cbn [eS eI fst snd] in *.
      assert (JB : In j B).
      { destruct (in_dec Nat.eq_dec j B) as [X|X]; auto. exfalso. destruct s as [|y0 s]; [easy|]. destruct (E6 y0 (or_introl eq_refl)) as [_ Y]. specialize (Y j Jn X).
        assert (Z := FA y0 (or_introl eq_refl)). unfold bit in Y. congruence. }
      assert (CN : cnok n (c ++ [(j, i)])). { apply Forall_app. split; auto. constructor; [|constructor]. destruct HB as [Bi _]. unfold opok. cbn [fst snd]. auto. }
      assert (G' := grp_cnot B i j (s, is, Some i) HB JB ltac:(auto) G). cbn [pn_ent] in G'.
      assert (PE' : pend (c ++ [(j, i)]) ((map (pn_add i j) s, is, Some i) :: map (pn_ent (pn_add i j)) q)).
      { change ((map (pn_add i j) s, is, Some i) :: map (pn_ent (pn_add i j)) q) with (map (pn_ent (pn_add i j)) ((s, is, Some i) :: q)). apply pend_cnot; [exact OK|exact (proj1 HB)|exact Jn|exact (not_eq_sym Ji)| |exact PE].
        intros e [<-|He]; [exact E5|eapply group_lens; eauto]. }
      destruct (IH (map (pn_add i j) s) (map (pn_ent (pn_add i j)) q) (c ++ [(j, i)]) HB) as [s' [q' [c' [R1 [R2 [R3 [R4 [R5 [R6 [R7 [R8 [d R9]]]]]]]]]]]]; auto.
      + destruct s; [easy|discriminate].
      + assert (X : length (filter (allone i (map (pn_add i j) s)) (seq 0 n)) < length (filter (allone i s) (seq 0 n))); [|lia]. apply (filter_len_lt _ _ _ j Hj Aj).
        * unfold allone. destruct (Nat.eqb_spec j i); [contradiction|]. cbn [negb andb]. destruct s as [|y0 s]; [easy|]. cbn [map forallb].
          change (nth j (pn_add i j y0) false) with (bit (pn_add i j y0) j). rewrite pn_add_bit by (rewrite (E5 y0 (or_introl eq_refl)); auto). rewrite Nat.eqb_refl, (proj1 (E6 y0 (or_introl eq_refl))).
          assert (Z := FA y0 (or_introl eq_refl)). unfold bit. rewrite Z. reflexivity.
        * intros x Hx. unfold allone. destruct (Nat.eqb_spec x i); auto. cbn [negb andb]. rewrite !forallb_forall. intros H y Hy.
          assert (Z := H (pn_add i j y) (in_map _ _ _ Hy)). change (bit (pn_add i j y) x = true) in Z. rewrite pn_add_bit in Z by (rewrite (E5 y Hy); auto).
          destruct (Nat.eqb_spec x j) as [->|_]; [apply FA, Hy|exact Z].
      + apply group_cnot; [exact HB|exact JB|exact (not_eq_sym Ji)|exact GQ].
      + exists s', q', c'. split; auto. split; auto. split; auto. split; auto. split; auto. split; [rewrite R6; apply map_length|]. split; [rewrite R7; apply measure_ent|]. split; auto.
        exists ([(j, i)] ++ d). rewrite R9, app_assoc. reflexivity.
  Qed.

  (** ** One round *)
  Lemma pn_max_in : forall s is i0, In (pn_max s i0 is) (i0 :: is).
  Proof.
    intros s. unfold pn_max. induction is as [|k is IH]; intros i0; cbn [fold_left]; [left; reflexivity|].
    destruct (IH (if Nat.ltb (pn_key s i0) (pn_key s k) then k else i0)) as [H|H]; [|right; right; exact H].
    rewrite <- H. destruct (Nat.ltb (pn_key s i0) (pn_key s k)); [right; left|left]; reflexivity.
  Qed.
  Definition neqf (j : nat) : list nat -> list nat := filter (fun k => negb (Nat.eqb k j)).
  Lemma neqf_in : forall j l k, In k (neqf j l) <-> In k l /\ k <> j.
  Proof. intros j l k. unfold neqf. rewrite filter_In, negb_true_iff, Nat.eqb_neq. reflexivity. Qed.
  Lemma neqf_le : forall j l, length (neqf j l) <= length l.
  Proof. intros j. induction l as [|k l IH]; auto. unfold neqf in *. cbn [filter]. destruct (negb (Nat.eqb k j)); simpl; lia. Qed.
  Lemma neqf_lt : forall j l, In j l -> length (neqf j l) < length l.
  Proof.
    intros j. induction l as [|k l IH]; intros H; [destruct H|]. unfold neqf in *. cbn [filter]. destruct (Nat.eqb_spec k j) as [->|N]; cbn [negb length].
    - assert (X := neqf_le j l). unfold neqf in X. lia.
    - destruct H as [->|H]; [contradiction|]. specialize (IH H). lia.
  Qed.
  Lemma split_len : forall (f : list bool -> bool) s, length (filter (fun y => negb (f y)) s) + length (filter f s) = length s.
  Proof. intros f. induction s as [|y s IH]; auto. cbn [filter]. destruct (f y); cbn [negb length]; simpl; lia. Qed.
  Lemma wt_ge : forall e, 0 < wt e. Proof. intros e. unfold wt. destruct (eS e) as [|y s]; [lia|]. cbn [length]. nia. Qed.
  Lemma wt_val : forall s is t, wt (s, is, t) = match length s with 0 => 1 | k => 2 * ((2 * k - 1) * (n + 1) + length is) end.
  Proof. intros s is t. unfold wt. cbn [eS eI fst snd]. destruct s; reflexivity. Qed.
  Lemma wt_split : forall s0 s1 s is t0 t1 t is0 is1, length s0 + length s1 = length s -> length s <> 0 -> length is <= n ->
    length is0 < length is -> length is1 <= length is -> (length s1 <> 0 -> length s0 <> 0 \/ length is1 < length is) -> wt (s0, is0, t0) + wt (s1, is1, t1) < wt (s, is, t).
  Proof.
    intros s0 s1 s is t0 t1 t is0 is1 L N Ln L0 L1 H. rewrite !wt_val. destruct (length s) as [|k] eqn:Es; [lia|]. clear N.
    destruct (length s1) as [|k1] eqn:E1.
    - replace (length s0) with (S k) by lia. lia.
    - destruct (length s0) as [|k0] eqn:E0.
      + replace k1 with k by lia. destruct (H ltac:(lia)); lia.
      + replace k with (S (k0 + k1)) by lia. nia.
  Qed.
  Definition stok (c : list (nat * nat)) (q : list entry) : Prop :=
    (exists s is L, q = (s, is, None) :: L /\ c = [] /\ (forall k, In k is -> k < n) /\ length is <= n /\ lens (s, is, None) /\
       (forall y, In y s -> forall k, k < n -> ~ In k is -> bit y k = false) /\ below is L) \/
    (exists B i, basis B i /\ group B i q) \/ chain q.
  Lemma chain_group : forall e q, chain (e :: q) -> exists i, basis (i :: eI e) i /\ grpok (i :: eI e) i e /\ below (i :: eI e) q.
  Proof.
    intros e q [[i [E1 [Hi [Ni [Hk [Ln [Le Y]]]]]]] [H2 H3]]. exists i. split; [split; [exact Hi|]; split; [left; reflexivity|]; intros k [<-|Hk']; auto|]. split.
    - split; auto. split; auto. split; [intros k H; right; exact H|]. split; auto. split; auto. split.
      + intros y Hy. destruct (Y y Hy) as [Y1 Y2]. split; auto. intros k Kn Kb. apply Y2; auto; intros X; apply Kb; [right|left]; auto.
      + intros y y' Hy Hy' k Kn Ki Kt. rewrite (proj2 (Y y Hy)), (proj2 (Y y' Hy')); auto.
    - split; auto. intros e' He k [<-|Hk']; apply (H2 e' He); auto.
  Qed.
  Hypothesis NZ : forall p, In p P -> existsb (fun b => b) p = true.
  Lemma pend_drop : forall c e q, (eS e = [] \/ eI e = []) -> pend c (e :: q) -> pend c q.
  Proof.
    intros c e q H PE p Hp. destruct (PE p Hp) as [R|[e0 [y [[<-|He] [NI [Hy E]]]]]]; auto.
    - destruct H as [H|H]; [rewrite H in Hy; destruct Hy|contradiction].
    - right. exists e0, y. auto.
  Qed.
  Lemma stok_drop : forall c e q, stok c (e :: q) -> stok c q.
  Proof.
    intros c e q [H|[H|H]].
    - destruct H as [s [is [L [E [_ [_ [_ [_ [_ [H _]]]]]]]]]]. inversion E; subst. right. right. exact H.
    - destruct H as [B [i [HB [G [L [E [FG BL]]]]]]]. destruct G as [|e0 G].
      + simpl in E. destruct BL as [CH _]. rewrite <- E in CH. right. right. apply CH.
      + simpl in E. inversion E; subst. right. left. exists B, i. split; auto. exists G, L. split; auto. split; auto. inversion FG; auto.
    - right. right. apply H.
  Qed.
  Lemma stok_none : forall c s is q, stok c ((s, is, None) :: q) -> exists L, q = L /\ c = [] /\ (forall k, In k is -> k < n) /\ length is <= n /\ lens (s, is, None) /\
       (forall y, In y s -> forall k, k < n -> ~ In k is -> bit y k = false) /\ below is L.
  Proof.
    intros c s is q [H|[H|H]].
    - destruct H as [s' [is' [L [E H]]]]. inversion E; subst. exists L. auto.
    - exfalso. destruct H as [B [i [HB [G [L [E [FG [CH _]]]]]]]]. destruct G as [|e0 G]; simpl in E.
      + rewrite <- E in CH. destruct CH as [[t [X _]] _]. discriminate.
      + inversion E; subst. inversion FG as [|? ? [X _]]; subst. discriminate.
    - exfalso. destruct H as [[t [X _]] _]. discriminate.
  Qed.
  Lemma stok_some : forall c s is t q, stok c ((s, is, Some t) :: q) -> exists B, basis B t /\ grpok B t (s, is, Some t) /\ group B t q.
  Proof.
    intros c s is t q H. assert (CG : forall q0, chain ((s, is, Some t) :: q0) -> exists B, basis B t /\ grpok B t (s, is, Some t) /\ group B t q0).
    { intros q0 H0. destruct (chain_group _ _ H0) as [i [B1 [B2 B3]]]. assert (E : i = t) by (destruct B2 as [X _]; cbn in X; congruence). subst i.
      exists (t :: is). split; auto. split; auto. exists [], q0. auto. }
    destruct H as [H|[H|H]]; auto.
    - destruct H as [s' [is' [L [E _]]]]. discriminate.
    - destruct H as [B [i [HB [G [L [E [FG BL]]]]]]]. destruct G as [|e0 G]; simpl in E.
      + apply CG. rewrite E. apply BL.
      + inversion E; subst. inversion FG as [|? ? GE FG']; subst. assert (X : i = t) by (destruct GE as [X _]; cbn in X; congruence). subst i.
        exists B. split; auto. split; auto. exists G, L. auto.
  Qed.
  Lemma loop_ok : forall fuel q c, measure q <= fuel -> cnok n c -> stok c q -> pend c q ->
    exists c', pn_loop fuel n q c = Ok c' /\ cnok n c' /\ forall p, In p P -> realised n p c'.
  Proof.
    induction fuel as [|f IH]; intros q c M OK ST PE.
    - destruct q as [|e q]; [|simpl in M; assert (X := wt_ge e); lia]. exists c. split; [reflexivity|]. split; auto. intros p Hp. destruct (PE p Hp) as [R|[e [y [[] _]]]]; auto.
    - destruct q as [|[[s is] t] q].
      { exists c. split; [reflexivity|]. split; auto. intros p Hp. destruct (PE p Hp) as [R|[e [y [[] _]]]]; auto. }
      assert (SKIP : s = [] \/ is = [] -> exists c', pn_loop f n q c = Ok c' /\ cnok n c' /\ forall p, In p P -> realised n p c').
      { intros H. apply IH; auto.
        - cbn [measure] in M. assert (X := wt_ge (s, is, t)). lia.
        - eapply stok_drop; eauto.
        - eapply pend_drop; [|exact PE]. exact H. }
      cbn [pn_loop]. destruct s as [|y0 s0]; [apply SKIP; auto|]. destruct is as [|i0 is0]; [apply SKIP; auto|].
      set (s := y0 :: s0) in *. set (is := i0 :: is0) in *. cbn [measure] in M. destruct t as [t|].
      + (* a group entry *)
        destruct (stok_some _ _ _ _ _ ST) as [B [HB [GE GQ]]].
        destruct (inner_ok B t is n s q c HB ltac:(easy)) as [s' [q' [c' [R1 [R2 [R3 [R4 [R5 [R6 [R7 [R8 _]]]]]]]]]]]; auto.
        { transitivity (length (seq 0 n)); [|rewrite seq_length; auto]. assert (X := filter_len_le (fun _ => true) (allone t s) (seq 0 n) (fun _ _ _ => eq_refl)).
          replace (filter (fun _ : nat => true) (seq 0 n)) with (seq 0 n) in X; [exact X|]. clear. induction (seq 0 n); simpl; congruence. }
        rewrite R1. cbn [bind]. set (j := pn_max s' i0 is0). assert (Jin : In j is) by apply pn_max_in.
        destruct R2 as [E1 [E2 [E3 [E4 [E5 [E6 E7]]]]]]. cbn [eS eI eT fst snd] in *. assert (Jt : j <> t) by (intros X; apply E4; rewrite <- X; exact Jin).
        assert (Jn : j < n) by (apply HB, E3, Jin). assert (NE' : s' <> []) by (intros X; rewrite X in R6; simpl in R6; lia).
        fold (neqf j is) (neqf t is).
        set (sz := filter (fun y => negb (nth j y false)) s'). set (so := filter (fun y => nth j y false) s').
        assert (SL : length sz + length so = length s') by apply split_len.
        assert (NT : ~ In t is) by exact E4.
        assert (IE : neqf t is <> []). { intros X. assert (Y : In i0 (neqf t is)) by (apply neqf_in; split; [left; reflexivity|intros ->; apply NT; left; reflexivity]). rewrite X in Y. destruct Y. }
        apply IH; [| exact R4 | |].
        * cbn [measure]. rewrite R7. assert (W : wt (sz, neqf j is, Some t) + wt (so, neqf t is, Some t) < wt (s, is, Some t)); [|lia].
          rewrite <- (wt_ent (fun y => y) (s, is, Some t)). cbn [pn_ent]. rewrite map_id.
          assert (W2 : wt (s, is, Some t) = wt (s', is, Some t)) by (rewrite !wt_val, R6; reflexivity). rewrite W2. apply wt_split; auto.
          -- destruct s'; [easy|simpl; lia].
          -- apply neqf_lt, Jin.
          -- apply neqf_le.
          -- intros _. left. intros Z0. assert (AO := R8 j Jn). unfold allone in AO. destruct (Nat.eqb_spec j t); [contradiction|]. cbn [negb andb] in AO.
             assert (FB : forallb (fun y => nth j y false) s' = true); [|congruence]. apply forallb_forall. intros y Hy. destruct (nth j y false) eqn:E; auto.
             exfalso. assert (Y : In y sz) by (apply filter_In; split; auto; rewrite E; reflexivity). destruct sz; [destruct Y|simpl in Z0; lia].
        * right. left. exists B, t. split; auto. destruct R3 as [G [L [-> [FG BL]]]]. exists ((sz, neqf j is, Some t) :: (so, neqf t is, Some t) :: G), L. split; [reflexivity|]. split; auto.
          assert (Hz : forall y, In y sz -> In y s' /\ bit y j = false) by (intros y Hy; apply filter_In in Hy; destruct Hy as [A Bq]; split; auto; apply negb_true_iff in Bq; exact Bq).
          assert (Ho : forall y, In y so -> In y s') by (intros y Hy; apply filter_In in Hy; apply Hy).
          constructor; [|constructor; auto].
          -- split; [reflexivity|]. cbn [eS eI fst snd]. split; [assert (X := neqf_le j is); lia|]. split; [intros k Hk; apply neqf_in in Hk; apply E3, Hk|]. split; [intros X; apply neqf_in in X; apply NT, X|].
             split; [intros y Hy; apply E5, Hz, Hy|]. split; [intros y Hy; apply E6, Hz, Hy|]. intros y y' Hy Hy' k Kn Ki Kt. destruct (Nat.eq_dec k j) as [->|Nk].
             ++ rewrite (proj2 (Hz y Hy)), (proj2 (Hz y' Hy')). reflexivity.
             ++ apply E7; auto; [apply Hz, Hy|apply Hz, Hy'|]. intros X. apply Ki, neqf_in. auto.
          -- split; [reflexivity|]. cbn [eS eI fst snd]. split; [assert (X := neqf_le t is); lia|]. split; [intros k Hk; apply neqf_in in Hk; apply E3, Hk|]. split; [intros X; apply neqf_in in X; apply NT, X|].
             split; [intros y Hy; apply E5, Ho, Hy|]. split; [intros y Hy; apply E6, Ho, Hy|]. intros y y' Hy Hy' k Kn Ki Kt. apply E7; auto. intros X. apply Ki, neqf_in. auto.
        * intros p Hp. destruct (R5 p Hp) as [R|[e [y [He [NI [Hy E]]]]]]; [left; exact R|]. destruct He as [<-|He].
          2: { right. exists e, y. split; auto. right. right. exact He. }
          cbn [eS eI fst snd] in *. destruct (nth j y false) eqn:Yj.
          -- right. exists (so, neqf t is, Some t), y. split; [right; left; reflexivity|]. split; [exact IE|]. split; [apply filter_In; auto|exact E].
          -- destruct (neqf j is) as [|k0 l0] eqn:Ej.
             ++ left. exists c', [], t. split; [rewrite app_nil_r; reflexivity|]. split; [exact (proj1 HB)|]. apply (expr_unit n y); [apply cnots_rect, R4|exact (proj1 HB)|exact E|apply E6, Hy|].
                intros k Kn Kt. destruct (Nat.eq_dec k j) as [->|Nk]; [exact Yj|]. destruct (bit y k) eqn:Yk; auto. exfalso.
                assert (KI : ~ In k is). { intros X. assert (Y : In k (neqf j is)) by (apply neqf_in; auto). rewrite Ej in Y. destruct Y. }
                assert (AO := R8 k Kn). unfold allone in AO. destruct (Nat.eqb_spec k t); [contradiction|]. cbn [negb andb] in AO.
                assert (FB : forallb (fun z => nth k z false) s' = true); [|congruence]. apply forallb_forall. intros z Hz. change (bit z k = true). rewrite <- Yk. apply E7; auto.
             ++ right. exists (sz, k0 :: l0, Some t), y. split; [left; reflexivity|]. split; [easy|]. split; [|exact E]. apply filter_In. split; auto. rewrite Yj. reflexivity.
      + (* still choosing the targets *)
        destruct (stok_none _ _ _ _ ST) as [L [-> [-> [Hk [Ln [Le [Y0 [CL BL]]]]]]]]. cbn [bind]. set (j := pn_max s i0 is0). assert (Jin : In j is) by apply pn_max_in.
        assert (Jn : j < n) by (apply Hk, Jin). fold (neqf j is).
        set (sz := filter (fun y => negb (nth j y false)) s). set (so := filter (fun y => nth j y false) s).
        assert (SL : length sz + length so = length s) by apply split_len.
        assert (Hz : forall y, In y sz -> In y s /\ bit y j = false) by (intros y Hy; apply filter_In in Hy; destruct Hy as [A Bq]; split; auto; apply negb_true_iff in Bq; exact Bq).
        assert (Ho : forall y, In y so -> In y s /\ bit y j = true) by (intros y Hy; apply filter_In in Hy; exact Hy).
        assert (NL := neqf_lt j is Jin).
        apply IH; [| exact OK | |].
        * cbn [measure]. assert (W : wt (sz, neqf j is, None) + wt (so, neqf j is, Some j) < wt (s, is, None)); [|lia].
          apply wt_split; auto; [simpl; lia|lia].
        * left. exists sz, (neqf j is), ((so, neqf j is, Some j) :: L). split; [reflexivity|]. split; [reflexivity|]. split; [intros k X; apply neqf_in in X; apply Hk, X|]. split; [lia|].
          split; [intros y Hy; apply Le, Hz, Hy|]. split.
          -- intros y Hy k Kn Ki. destruct (Nat.eq_dec k j) as [->|Nk]; [apply Hz, Hy|]. apply Y0; [apply Hz, Hy|exact Kn|]. intros X. apply Ki, neqf_in. auto.
          -- split.
             ++ cbn [chain]. split; [|split; [|exact CL]].
                ** exists j. split; [reflexivity|]. split; auto. cbn [eS eI fst snd]. split; [intros X; apply neqf_in in X; lia|]. split; [intros k X; apply neqf_in in X; apply Hk, X|]. split; [lia|].
                   split; [intros y Hy; apply Le, Ho, Hy|]. intros y Hy. split; [apply Ho, Hy|]. intros k Kn Ki Kj. apply Y0; [apply Ho, Hy|exact Kn|]. intros X. apply Ki, neqf_in. auto.
                ** intros e' He k [X|X]; cbn [eI eT fst snd] in X; apply (BL e' He); [apply neqf_in in X; apply X|inversion X; subst; exact Jin].
             ++ intros e' [<-|He] k X; [exact X|]. apply (BL e' He). apply neqf_in in X. apply X.
        * intros p Hp. destruct (PE p Hp) as [R|[e [y [He [NI [Hy E]]]]]]; [left; exact R|]. destruct He as [<-|He].
          2: { right. exists e, y. split; auto. right. right. exact He. }
          cbn [eS eI fst snd] in *. destruct (nth j y false) eqn:Yj.
          -- destruct (neqf j is) as [|k0 l0] eqn:Ej.
             ++ left. exists [], [], j. split; [reflexivity|]. split; auto. apply (expr_unit n y); auto; [apply id_shape|]. intros k Kn Kj. apply Y0; auto. intros X.
                assert (Y : In k (neqf j is)) by (apply neqf_in; auto). rewrite Ej in Y. destruct Y.
             ++ right. exists (so, k0 :: l0, Some j), y. split; [right; left; reflexivity|]. split; [easy|]. split; [apply filter_In; auto|exact E].
          -- destruct (neqf j is) as [|k0 l0] eqn:Ej.
             ++ exfalso. assert (X := NZ p Hp). rewrite (expr_zero n y _ p E) in X; [discriminate|]. intros k Kn. destruct (Nat.eq_dec k j) as [->|Nk]; [exact Yj|]. apply Y0; auto. intros Z.
                assert (Y : In k (neqf j is)) by (apply neqf_in; auto). rewrite Ej in Y. destruct Y.
             ++ right. exists (sz, k0 :: l0, None), y. split; [left; reflexivity|]. split; [easy|]. split; [|exact E]. apply filter_In. split; auto. rewrite Yj. reflexivity.
  Qed.
End Net.

(** parity_network terminates, its CNOTs are well formed and every non-zero
    parity is on some qubit at some moment *)
Theorem parity_network_ok : forall n s, colsok n s -> exists c, parity_network n s = Ok c /\ cnok n c /\
  forall p, In p s -> existsb (fun b => b) p = true -> realised n p c.
Proof.
  intros n s OK. set (P := filter (existsb (fun b => b)) s).
  destruct (loop_ok n P) with (fuel := pn_fuel n s) (q := [(s, seq 0 n, @None nat)]) (c := @nil (nat * nat)) as [c [A [B D]]].
  - intros p Hp. apply filter_In in Hp. apply Hp.
  - unfold pn_fuel. cbn [measure]. rewrite wt_val, seq_length. destruct (length s) as [|k]; [lia|]. nia.
  - constructor.
  - left. exists s, (seq 0 n), []. split; [reflexivity|]. split; [reflexivity|]. split; [intros k Hk; apply in_seq in Hk; lia|]. split; [rewrite seq_length; auto|]. split; [exact OK|].
    split; [intros y _ k Kn Ki; destruct Ki; apply in_seq; lia|]. split; [exact I|easy].
  - intros p Hp. apply filter_In in Hp. destruct Hp as [Hp NZ]. right. exists (s, seq 0 n, None), p. split; [left; reflexivity|]. cbn [eS eI fst snd].
    assert (L := OK p Hp). split.
    + intros X. destruct n; [|discriminate]. destruct p; [discriminate|simpl in L; lia].
    + split; auto. apply expr_id, L.
  - exists c. split; auto. split; auto. intros p Hp Z. apply D, filter_In. auto.
Qed.

(** The greedy reductions produce rows with a single one *)
From Coq Require Import List Bool Arith ZArith NArith Lia Permutation.
From Verif Require Import Base LinModel LinProofs LinAlg LinUse GreedyModel.
Import ListNotations.

(** *** Specification: the sum of the rows with index in [L] *)
Definition sumvec (m : mat) (L : list nat) : list bool := map (fun j => xsuml (fun i => get m i j) L) (seq 0 (cols m)).
Definition one_row (m : mat) (i : nat) : Prop := i < rows m /\ weight (row m i) = 1.
(** row additions (a, b): add row a to row b, as in [m.row_add(a, b)] *)
Notation replay_adds ops m := (track_x row_add ops m).

Lemma zipx_len : forall a b, length a = length b -> length (zipx a b) = length a.
Proof. induction a as [|x a IH]; intros [|y b] H; simpl in *; auto; try discriminate. Qed.
Lemma zipx_nth : forall a b j, length a = length b -> nth j (zipx a b) false = xorb (nth j a false) (nth j b false).
Proof. induction a as [|x a IH]; intros [|y b] j H; simpl in *; try discriminate; [destruct j; reflexivity|]. destruct j; auto. Qed.
Lemma xor_rows_ok : forall a b, length a = length b -> xor_rows a b = Ok (zipx a b).
Proof. intros. unfold xor_rows. rewrite H, Nat.ltb_irrefl. reflexivity. Qed.
Lemma weight_le : forall l, weight l <= length l.
Proof. intros. unfold weight. induction l as [|[] l IH]; simpl; lia. Qed.

(** *** find_minimal_sums *)
Section Find.
  Variables (m : mat).
  Hypothesis W : wfm m.
  Notation r := (rows m). Notation c := (cols m).
  Fixpoint incr (l : list nat) : Prop := match l with [] => True | x :: l => Forall (fun y => x < y) l /\ incr l end.
  Lemma incr_snoc : forall l k, incr l -> Forall (fun x => x < k) l -> incr (l ++ [k]).
  Proof. induction l as [|x l IH]; intros k H F; simpl; auto. destruct H as [H1 H2]. inversion F; subst. split; [apply Forall_app; auto|auto]. Qed.
  Lemma incr_nodup : forall l, incr l -> NoDup l.
  Proof. induction l as [|x l IH]; intros H; constructor; destruct H as [H1 H2]; auto. intros X. rewrite Forall_forall in H1. apply H1 in X. lia. Qed.
  Lemma maxl_ge : forall l x, In x l -> x <= maxl l.
  Proof.
    intros l x H. unfold maxl. enough (G : forall l a, a <= fold_left Nat.max l a /\ forall x, In x l -> x <= fold_left Nat.max l a) by (apply (G l 0); auto).
    clear. induction l as [|y l IH]; intros a; simpl; [split; [auto|intros x []]|]. destruct (IH (Nat.max a y)) as [A B]. split; [lia|]. intros x [<-|Hx]; [lia|auto].
  Qed.
  Definition good_idx (l : list nat) : Prop := incr l /\ l <> [] /\ forall i, In i l -> i < r.
  Definition entry (e : list nat * list bool) : Prop := good_idx (fst e) /\ snd e = sumvec m (fst e).
  Lemma sumvec_len : forall L, length (sumvec m L) = c.
  Proof. intros. unfold sumvec. rewrite map_length, seq_length. auto. Qed.
  Lemma sumvec_nth : forall L j, j < c -> nth j (sumvec m L) false = xsuml (fun i => get m i j) L.
  Proof. intros. unfold sumvec. apply nth_map_seq. auto. Qed.
  Lemma row_len : forall i, i < r -> length (row m i) = c.
  Proof. intros. apply (rect_row r); auto. Qed.
  Lemma sumvec_one : forall i, i < r -> sumvec m [i] = row m i.
  Proof.
    intros i Hi. apply nth_ext with (d := false) (d' := false); [rewrite sumvec_len, row_len; auto|]. intros j Hj. rewrite sumvec_len in Hj. rewrite sumvec_nth by auto.
    cbn [xsuml]. rewrite xorb_false_r. reflexivity.
  Qed.
  Lemma sumvec_snoc : forall L k, k < r -> zipx (sumvec m L) (row m k) = sumvec m (L ++ [k]).
  Proof.
    intros L k Hk. assert (E : length (sumvec m L) = length (row m k)) by (rewrite sumvec_len, row_len; auto).
    apply nth_ext with (d := false) (d' := false); [rewrite zipx_len, !sumvec_len; auto|]. intros j Hj. rewrite zipx_len, sumvec_len in Hj by auto.
    rewrite zipx_nth, !sumvec_nth by auto. rewrite xsuml_app. cbn [xsuml]. rewrite xorb_false_r. reflexivity.
  Qed.
  Lemma snoc_good : forall idx k, good_idx idx -> maxl idx < k < r -> good_idx (idx ++ [k]).
  Proof.
    intros idx k [A [B C]] Hk. split; [|split].
    - apply incr_snoc; auto. apply Forall_forall. intros x Hx. apply maxl_ge in Hx. lia.
    - destruct idx; discriminate.
    - intros i Hi. apply in_app_or in Hi. destruct Hi as [Hi|[<-|[]]]; [auto|lia].
  Qed.
  Lemma krange_in : forall rv mx n k, In k (krange rv mx n) -> mx < k < n.
  Proof. intros rv mx n k H. unfold krange in H. assert (X : In k (seq (mx + 1) (n - (mx + 1)))) by (destruct rv; auto; apply in_rev; auto). apply in_seq in X. lia. Qed.
  Definition hit (x : list nat) : Prop := good_idx x /\ 2 <= length x /\ weight (sumvec m x) = 1.
  Lemma snoc_hit : forall idx k, good_idx idx -> maxl idx < k < r -> weight (zipx (sumvec m idx) (row m k)) = 1 -> hit (idx ++ [k]).
  Proof.
    intros idx k G Hk H. rewrite sumvec_snoc in H by lia. split; [apply snoc_good; auto|]. split; auto.
    rewrite app_length. simpl. destruct G as [_ [G _]]. destruct idx; [congruence|simpl; lia].
  Qed.
  Lemma inner_ok : forall idx ks acc it, good_idx idx -> (forall k, In k ks -> maxl idx < k < r) -> Forall entry acc ->
    match fms_inner m idx (sumvec m idx) ks acc it with
    | inl x => hit x
    | inr (acc', it') => Forall entry acc' /\ exists new, acc' = acc ++ new /\ Forall (fun e => length (fst e) = S (length idx)) new
    end.
  Proof.
    intros idx ks. induction ks as [|k ks IH]; intros acc it G HK FA; cbn [fms_inner].
    - split; auto. exists []. rewrite app_nil_r. auto.
    - assert (Hk := HK k (or_introl eq_refl)). destruct (Nat.eqb_spec (weight (zipx (sumvec m idx) (row m k))) 1) as [E|E].
      + apply snoc_hit; auto.
      + specialize (IH (acc ++ [(idx ++ [k], zipx (sumvec m idx) (row m k))]) (it + 1)%N G ltac:(intros; apply HK; right; auto)).
        assert (FA' : Forall entry (acc ++ [(idx ++ [k], zipx (sumvec m idx) (row m k))])).
        { apply Forall_app. split; auto. constructor; auto. split; simpl; [apply snoc_good; auto|apply sumvec_snoc; lia]. }
        specialize (IH FA'). destruct (fms_inner _ _ _ _ _ _) as [x|[acc' it']]; auto. destruct IH as [A [new [-> B]]]. split; auto.
          eexists. rewrite <- app_assoc. split; [reflexivity|]. constructor; auto. simpl. rewrite app_length. simpl. lia.
  Qed.
  Lemma outer_ok : forall rv n cs acc it, Forall entry cs -> Forall (fun e => length (fst e) = n) cs -> Forall entry acc -> Forall (fun e => length (fst e) = S n) acc ->
    match fms_outer rv m r cs acc it with
    | inl (Some x) => hit x
    | inl None => True
    | inr (acc', it') => Forall entry acc' /\ Forall (fun e => length (fst e) = S n) acc'
    end.
  Proof.
    intros rv n. induction cs as [|[idx l] cs IH]; intros acc it FC LC FA LA; cbn [fms_outer]; auto.
    inversion FC as [|? ? [G S] FC']; subst. inversion LC as [|? ? L LC']; subst. simpl in G, S. subst l.
    assert (I := inner_ok idx (krange rv (maxl idx) r) acc it G (krange_in rv _ _) FA).
    destruct (fms_inner _ _ _ _ _ _) as [x|[acc' it']]; auto. destruct I as [A [new [-> B]]].
    destruct (N.ltb 100000 it'); auto. apply IH; auto. apply Forall_app. split; auto.
  Qed.
  Lemma good_len : forall l, good_idx l -> length l <= r.
  Proof.
    intros l [A [_ C]]. assert (X := NoDup_incl_length (incr_nodup l A) (l' := seq 0 r)). rewrite seq_length in X. apply X. intros i Hi. apply in_seq. apply C in Hi. lia.
  Qed.
  Lemma loop_ok : forall rv fuel n cs it, n + fuel = S (S r) -> Forall entry cs -> Forall (fun e => length (fst e) = n) cs -> (cs <> [] \/ fuel <> 0) ->
    exists o, fms_loop fuel rv m r cs it = Ok o /\ match o with Some x => hit x | None => True end.
  Proof.
    intros rv. induction fuel as [|f IH]; intros n cs it E FC LC NE.
    - exfalso. destruct NE as [NE|NE]; [|lia]. destruct cs as [|e cs]; [congruence|]. inversion FC as [|? ? [G _] _]; subst. inversion LC; subst. apply good_len in G. lia.
    - cbn [fms_loop]. assert (O := outer_ok rv n cs [] it FC LC (Forall_nil _) (Forall_nil _)).
      destruct (fms_outer rv m r cs [] it) as [o|[cs' it']]; [exists o; split; auto; destruct o; auto|]. destruct O as [A B].
      destruct cs' as [|e cs']; [exists None; auto|]. apply (IH (S n)); auto; [lia|]. left. discriminate.
  Qed.
  Lemma start_entries : Forall entry (map (fun i => ([i], row m i)) (seq 0 r)) /\ Forall (fun e : list nat * list bool => length (fst e) = 1) (map (fun i => ([i], row m i)) (seq 0 r)).
  Proof.
    split; apply Forall_forall; intros e He; apply in_map_iff in He; destruct He as [i [<- Hi]]; apply in_seq in Hi; auto.
    split; simpl; [|symmetry; apply sumvec_one; lia]. split; [simpl; auto|]. split; [discriminate|]. intros j [<-|[]]. lia.
  Qed.
  Lemma find_ok : forall rv, exists o, find_minimal_sums rv m = Ok o /\
    match o with Some [] => exists i, one_row m i | Some x => hit x | None => True end.
  Proof.
    intros rv. unfold find_minimal_sums. destruct (existsb _ m) eqn:X.
    - exists (Some []). split; auto. apply existsb_exists in X. destruct X as [x [Hx Ex]]. apply Nat.eqb_eq in Ex. destruct (In_nth _ _ [] Hx) as [i [Hi <-]]. exists i. split; auto.
    - destruct start_entries as [A B]. destruct (loop_ok rv (S r) 1 _ 0%N ltac:(lia) A B) as [o [-> H]].
      + right. lia.
      + exists o. split; auto. destruct o as [x|]; auto. destruct x; auto. destruct H as [[_ [H _]] _]. congruence.
  Qed.
End Find.

(** *** choosing and performing row additions *)
Lemma zipx_comm : forall a b, zipx a b = zipx b a.
Proof. induction a as [|x a IH]; intros [|y b]; auto. simpl. rewrite IH, xorb_comm. reflexivity. Qed.
Lemma xorl_zipx : forall a b, length a = length b -> xorl a b = zipx a b.
Proof. induction a as [|x a IH]; intros [|y b] H; simpl in *; try discriminate; auto. rewrite IH by auto. destruct x, y; reflexivity. Qed.
Lemma foldM_inv : forall A S (f : S -> A -> res S) (P : S -> Prop) l st, (forall x st, In x l -> P st -> exists st', f st x = Ok st' /\ P st') -> P st -> exists st', foldM f l st = Ok st' /\ P st'.
Proof.
  induction l as [|x l IH]; intros st H HP; simpl; eauto. destruct (H x st (or_introl eq_refl) HP) as [st' [-> HP']]. simpl. apply IH; auto. intros; apply H; auto. right; auto.
Qed.
Lemma foldM_app : forall A S (f : S -> A -> res S) l1 l2 st, foldM f (l1 ++ l2) st = let* s := foldM f l1 st in foldM f l2 s.
Proof. induction l1 as [|x l1 IH]; intros l2 st; simpl; auto. destruct (f st x); simpl; auto. Qed.
Lemma remove_first_perm : forall a l, In a l -> exists l', remove_first a l = Ok l' /\ Permutation l (a :: l').
Proof.
  induction l as [|x l IH]; intros H; [destruct H|]. simpl. destruct (Nat.eqb_spec x a) as [->|N]; [exists l; auto|].
  destruct H as [H|H]; [congruence|]. destruct (IH H) as [l' [-> P]]. cbn [bind]. exists (x :: l'). split; auto. rewrite P. apply perm_swap.
Qed.

Section Greedy.
  Variables (r c : nat).
  Hypothesis small : (Z.of_nat c < 10000)%Z.
  Definition agree (A : list nat) (M : mat) (rws : dict (list bool)) (wts : dict Z) : Prop :=
    forall i, In i A -> i < r /\ dget i rws = Some (row M i) /\ dget i wts = Some (Z.of_nat (weight (row M i))).
  Section Step.
    Variables (M : mat) (rws : dict (list bool)) (wts : dict Z) (A : list nat).
    Hypothesis RM : rect r c M.
    Hypothesis AG : agree A M rws wts.
    Notation wt i := (Z.of_nat (weight (row M i))).
    Notation wx i j := (Z.of_nat (weight (zipx (row M i) (row M j)))).
    Definition bgood (st : option (nat * nat) * Z) : Prop :=
      st = (None, (-10000)%Z) \/ exists a b, In a A /\ In b A /\ a <> b /\ st = (Some (a, b), (wt b - wx a b)%Z).
    Lemma len_row : forall i, In i A -> length (row M i) = c.
    Proof. intros i Hi. apply (rect_row r); auto. apply AG; auto. Qed.
    Lemma step_ok : forall ij st, In ij (list_prod A A) -> bgood st -> exists st', bp_step rws wts st ij = Ok st' /\ bgood st' /\
      (fst ij < snd ij \/ fst st <> None -> fst st' <> None).
    Proof.
      intros [i j] st H B. apply in_prod_iff in H. destruct H as [Hi Hj]. unfold bp_step. cbn [fst snd].
      destruct (Nat.leb_spec j i) as [L|L]; [exists st; split; [auto|split; auto]; intros [X|X]; [lia|auto]|].
      destruct (AG i Hi) as [_ [Ri Wi]]. destruct (AG j Hj) as [_ [Rj Wj]]. unfold look. rewrite Ri, Rj, Wi, Wj. cbn [bind].
      rewrite xor_rows_ok by (rewrite !len_row; auto). cbn [bind].
      assert (B1 : bgood (Some (j, i), (wt i - wx i j)%Z)) by (right; exists j, i; rewrite (zipx_comm (row M j)); repeat split; auto; lia).
      assert (B2 : bgood (Some (i, j), (wt j - wx i j)%Z)) by (right; exists i, j; repeat split; auto; lia).
      assert (LX : (wx i j <= Z.of_nat c)%Z).
      { assert (X := weight_le (zipx (row M i) (row M j))). rewrite zipx_len, len_row in X by (rewrite ?len_row; auto). lia. }
      eexists. split; [reflexivity|].
      destruct (Z.ltb_spec (snd st) (wt i - wx i j)) as [L1|L1]; cbn [snd].
      - destruct (Z.ltb_spec (wt i - wx i j) (wt j - wx i j)); split; auto; intros; discriminate.
      - destruct (Z.ltb_spec (snd st) (wt j - wx i j)) as [L2|L2]; split; auto; intros _; [discriminate|].
        destruct B as [->|[a [b [_ [_ [_ ->]]]]]]; [cbn [snd] in L1; lia|discriminate].
    Qed.
    Lemma two_pair : NoDup A -> 2 <= length A -> exists ij, In ij (list_prod A A) /\ fst ij < snd ij.
    Proof.
      intros N L. clear AG. destruct A as [|x [|y l]]; simpl in L; try lia. inversion N as [|? ? N1 N2]; subst. destruct (Nat.lt_total x y) as [H|[->|H]].
      - exists (x, y). split; auto. apply in_prod; simpl; auto.
      - exfalso. apply N1. left. auto.
      - exists (y, x). split; auto. apply in_prod; simpl; auto.
    Qed.
    Lemma best_ok : NoDup A -> 2 <= length A -> exists a b, In a A /\ In b A /\ a <> b /\ best_pair rws wts A = Ok (Some (a, b), (wt b - wx a b)%Z).
    Proof.
      intros N L. destruct (two_pair N L) as [ij [Hij Lij]]. destruct (in_split _ _ Hij) as [l1 [l2 E]]. unfold best_pair. rewrite E, foldM_app.
      assert (S1 : forall x, In x l1 -> In x (list_prod A A)) by (intros; rewrite E; apply in_or_app; auto).
      assert (S2 : forall x, In x l2 -> In x (list_prod A A)) by (intros; rewrite E; apply in_or_app; right; right; auto).
      destruct (foldM_inv _ _ (bp_step rws wts) bgood l1 (None, (-10000)%Z)) as [s1 [-> B1]].
      { intros x st Hx B. destruct (step_ok x st (S1 x Hx) B) as [st' [E1 [B' _]]]. eauto. }
      { left. auto. }
      cbn [bind foldM]. destruct (step_ok ij s1 Hij B1) as [s2 [-> [B2 P2]]]. cbn [bind].
      destruct (foldM_inv _ _ (bp_step rws wts) (fun st => bgood st /\ fst st <> None) l2 s2) as [s3 [-> [B3 P3]]].
      { intros x st Hx [B P]. destruct (step_ok x st (S2 x Hx) B) as [st' [E1 [B' P']]]. exists st'. repeat split; auto. }
      { split; auto. }
      destruct B3 as [->|[a [b [Ha [Hb [Nab ->]]]]]]; [exfalso; apply P3; reflexivity|]. exists a, b. auto.
    Qed.
    (** performing the chosen addition *)
    Lemma add_agree : forall a b B, In a A -> In b A -> a <> b -> (forall i, In i B -> In i A) ->
      agree B (row_add a b M) (dset b (zipx (row M a) (row M b)) rws) (dset b (wt b - (wt b - wx a b))%Z wts).
    Proof.
      intros a b B Ha Hb N S i Hi. apply S in Hi. destruct (AG i Hi) as [Li [Ri Wi]]. split; auto. rewrite !dget_dset.
      destruct (AG b Hb) as [Lb _].
      assert (RR : row (row_add a b M) i = if Nat.eqb i b then zipx (row M a) (row M b) else row M i).
      { unfold row_add. unfold row at 1. rewrite nth_upd. rewrite (proj1 RM). rewrite (proj2 (Nat.ltb_lt b r)) by auto. rewrite andb_true_r.
        destruct (Nat.eqb i b); auto. apply xorl_zipx. rewrite !len_row; auto. }
      rewrite RR. destruct (Nat.eqb_spec i b) as [->|]; [|split; auto]. split; auto. f_equal. lia.
    Qed.
  End Step.
  (** the sum of the active rows does not change *)
  Definition total (M : mat) (A : list nat) (j : nat) : bool := xsuml (fun i => get M i j) A.
  Lemma xsuml_ext : forall f g l, (forall i, In i l -> f i = g i) -> xsuml f l = xsuml g l.
  Proof. induction l as [|x l IH]; intros H; auto. simpl. rewrite (H x), IH; auto; [intros; apply H; right; auto|left; auto]. Qed.
  Lemma total_add : forall M A B a b j, rect r c M -> NoDup A -> (forall i, In i A -> i < r) -> a <> b -> In b B -> Permutation A (a :: B) ->
    total (row_add a b M) B j = total M A j.
  Proof.
    intros M A B a b j RM N HA Nab Hb P. unfold total. rewrite (xsuml_perm _ _ _ P). cbn [xsuml].
    destruct (in_split _ _ Hb) as [l1 [l2 ->]]. assert (P2 : Permutation (l1 ++ b :: l2) (b :: l1 ++ l2)) by (symmetry; apply Permutation_middle).
    rewrite (xsuml_perm _ _ _ P2), (xsuml_perm (fun i => get M i j) _ _ P2). cbn [xsuml].
    assert (Ha' : a < r) by (apply HA; apply (Permutation_in _ (Permutation_sym P)); left; auto).
    assert (Hb' : b < r) by (apply HA; apply (Permutation_in _ (Permutation_sym P)); right; apply in_or_app; right; left; auto).
    rewrite (get_row_add r c a b M b j) by auto. rewrite Nat.eqb_refl.
    rewrite (xsuml_ext _ (fun i => get M i j) (l1 ++ l2)).
    - destruct (get M b j), (get M a j), (xsuml (fun i => get M i j) (l1 ++ l2)); reflexivity.
    - intros i Hi. rewrite (get_row_add r c a b M i j) by auto. destruct (Nat.eqb_spec i b) as [->|]; auto. exfalso.
      assert (N' : NoDup (a :: b :: l1 ++ l2)) by (apply (Permutation_NoDup (l := A)); auto; rewrite P; constructor; auto).
      inversion N' as [|? ? _ N2]; subst. inversion N2; subst. contradiction.
  Qed.
  Definition adds_ok (S : list nat) (ops : list (nat * nat)) : Prop := forall ab, In ab ops -> In (fst ab) S /\ In (snd ab) S /\ fst ab <> snd ab.
  Lemma greedy_loop_ok : forall fuel A M rws wts result, length A <= fuel -> rect r c M -> NoDup A -> A <> [] -> agree A M rws wts ->
    exists ops i, greedy_loop (S fuel) A rws wts result = Ok (result ++ ops) /\ In i A /\ adds_ok A ops /\ rect r c (replay_adds ops M) /\
      forall j, get (replay_adds ops M) i j = total M A j.
  Proof.
    induction fuel as [|f IH]; intros A M rws wts result L RM N NE AG.
    - destruct A; simpl in L; [congruence|lia].
    - remember (S f) as q eqn:Eq. cbn [greedy_loop]. subst q. destruct (Nat.leb_spec (length A) 1) as [L1|L1].
      + destruct A as [|i [|? ?]]; simpl in L1; try lia; [congruence|]. exists [], i. rewrite app_nil_r. split; auto. split; [left; auto|].
        split; [intros ab []|]. split; auto. intros j. unfold total. simpl. rewrite xorb_false_r. reflexivity.
      + destruct (best_ok M rws wts A RM AG N ltac:(lia)) as [a [b [Ha [Hb [Nab E]]]]]. rewrite E. cbn [bind fst snd].
        destruct (AG a Ha) as [La [Ra _]]. destruct (AG b Hb) as [Lb [Rb Wb]]. unfold look. rewrite Ra, Rb, Wb. cbn [bind].
        assert (EL : length (row M a) = length (row M b)) by (rewrite !(rect_row r c); auto). rewrite xor_rows_ok by auto. cbn [bind].
        destruct (remove_first_perm a A Ha) as [B [-> P]]. cbn [bind].
        assert (SB : forall i, In i B -> In i A) by (intros i Hi; apply (Permutation_in _ (Permutation_sym P)); right; auto).
        assert (HbB : In b B) by (apply (Permutation_in _ P) in Hb; destruct Hb; [congruence|auto]).
        assert (NB : NoDup (a :: B)) by (apply (Permutation_NoDup P); auto). inversion NB; subst.
        destruct (IH B (row_add a b M) (dset b (zipx (row M a) (row M b)) rws) (dset b (Z.of_nat (weight (row M b)) - (Z.of_nat (weight (row M b)) - Z.of_nat (weight (zipx (row M a) (row M b)))))%Z wts) (result ++ [(a, b)])) as [ops [i [E1 [Hi [AO [RO T]]]]]]; auto.
        * apply Permutation_length in P. simpl in P. lia.
        * apply row_add_rect; auto.
        * intros ->. destruct HbB.
        * apply (add_agree M rws wts A); auto.
        * exists ((a, b) :: ops), i. split; [rewrite E1, <- app_assoc; reflexivity|]. split; auto. split.
          { intros ab [<-|Hab]; [simpl; auto|]. destruct (AO ab Hab) as [X [Y Z]]. auto. }
          split; [exact RO|]. intros j. change (replay_adds ((a, b) :: ops) M) with (replay_adds ops (row_add a b M)). rewrite T. apply (total_add M A B); auto. intros i' Hi'. apply AG. auto.
  Qed.
  Lemma flat_loop_ok : forall fuel A N2 M rws wts result, length A + length N2 <= fuel -> rect r c M -> NoDup (A ++ N2) -> (2 <= length A \/ N2 = []) -> A <> [] -> agree (A ++ N2) M rws wts ->
    exists ops i, flat_loop (S fuel) A N2 rws wts result = Ok (result ++ ops, [i]) /\ In i (A ++ N2) /\ adds_ok (A ++ N2) ops /\ rect r c (replay_adds ops M) /\
      forall j, get (replay_adds ops M) i j = total M (A ++ N2) j.
  Proof.
    induction fuel as [|f IH]; intros A N2 M rws wts result L RM N C2 NE AG.
    - destruct A; simpl in L; [congruence|lia].
    - remember (S f) as q eqn:Eq. cbn [flat_loop]. subst q. destruct (Nat.leb_spec (length A) 1) as [L1|L1].
      + destruct C2 as [C2| ->]; [lia|]. rewrite app_nil_r in *. destruct A as [|i [|? ?]]; simpl in L1; try lia; [congruence|]. exists [], i. rewrite app_nil_r. split; auto. split; [left; auto|].
        split; [intros ab []|]. split; auto. intros j. unfold total. simpl. rewrite xorb_false_r. reflexivity.
      + assert (AGA : agree A M rws wts) by (intros i Hi; apply AG, in_or_app; auto).
        assert (NA : NoDup A) by (clear -N; induction A; [constructor|]; inversion N; subst; constructor; auto; intros X; apply H1, in_or_app; auto).
        destruct (best_ok M rws wts A RM AGA NA ltac:(lia)) as [a [b [Ha [Hb [Nab E]]]]]. rewrite E. cbn [bind fst snd].
        destruct (AGA a Ha) as [La [Ra _]]. destruct (AGA b Hb) as [Lb [Rb Wb]]. unfold look. rewrite Ra, Rb, Wb. cbn [bind].
        assert (EL : length (row M a) = length (row M b)) by (rewrite !(rect_row r c); auto). rewrite xor_rows_ok by auto. cbn [bind].
        destruct (remove_first_perm a A Ha) as [B [-> P]]. cbn [bind].
        assert (HbB : In b B) by (apply (Permutation_in _ P) in Hb; destruct Hb; [congruence|auto]).
        destruct (remove_first_perm b B HbB) as [D [-> P2]]. cbn [bind].
        set (rws' := dset b (zipx (row M a) (row M b)) rws).
        set (wts' := dset b (Z.of_nat (weight (row M b)) - (Z.of_nat (weight (row M b)) - Z.of_nat (weight (zipx (row M a) (row M b)))))%Z wts).
        set (pr := match D with [] => (N2 ++ [b], []) | [i] => ((N2 ++ [b]) ++ [i], []) | _ => (D, N2 ++ [b]) end).
        assert (PR : Permutation (a :: fst pr ++ snd pr) (A ++ N2)).
        { assert (X : Permutation (fst pr ++ snd pr) (D ++ N2 ++ [b])).
          { unfold pr. destruct D as [|i [|i2 D]]; cbn [fst snd]; rewrite ?app_nil_r; auto. rewrite <- (Permutation_app_comm [i]). reflexivity. }
          rewrite X, P, P2. simpl. constructor. rewrite (Permutation_app_comm N2 [b]). simpl. symmetry. apply Permutation_middle. }
        assert (NE2 : fst pr <> []) by (unfold pr; destruct D as [|i [|i2 D]]; cbn [fst]; try discriminate; intros X; apply app_eq_nil in X; try (destruct X; discriminate); destruct X as [X _]; apply app_eq_nil in X; destruct X; discriminate).
        assert (C3 : 2 <= length (fst pr) \/ snd pr = []) by (unfold pr; destruct D as [|i [|i2 D]]; cbn [fst snd]; auto; left; simpl; lia).
        assert (LP := Permutation_length PR). simpl in LP. rewrite !app_length in LP.
        assert (SB : forall i, In i (fst pr ++ snd pr) -> In i (A ++ N2)) by (intros i Hi; apply (Permutation_in _ PR); right; auto).
        assert (NP : NoDup (a :: fst pr ++ snd pr)) by (apply (Permutation_NoDup (Permutation_sym PR)); auto). inversion NP as [|? ? _ NP2]; subst.
        assert (HaA : In a (A ++ N2)) by (apply in_or_app; auto). assert (HbA : In b (A ++ N2)) by (apply in_or_app; auto).
        assert (Hbp : In b (fst pr ++ snd pr)) by (apply (Permutation_in _ (Permutation_sym PR)) in HbA; destruct HbA; [congruence|auto]).
        destruct (IH (fst pr) (snd pr) (row_add a b M) rws' wts' (result ++ [(a, b)])) as [ops [i [E1 [Hi [AO [RO T]]]]]]; auto.
        * lia.
        * apply row_add_rect; auto.
        * apply (add_agree M rws wts (A ++ N2)); auto.
        * exists ((a, b) :: ops), i. split; [|split; [apply SB; auto|split; [|split; [exact RO|]]]].
          { rewrite <- app_assoc in E1. etransitivity; [|exact E1]. unfold pr. destruct D as [|i1 [|i2 D]]; reflexivity. }
          { intros ab [<-|Hab]; [simpl; auto|]. destruct (AO ab Hab) as [X [Y Z]]. auto. }
          intros j. change (replay_adds ((a, b) :: ops) M) with (replay_adds ops (row_add a b M)). rewrite T. apply (total_add M (A ++ N2)); auto.
          { intros i' Hi'. apply AG. auto. } { symmetry. exact PR. }
  Qed.
End Greedy.
Lemma dget_fold : forall V (f : nat -> V) L d i, dget i (fold_left (fun d i => dset i (f i) d) L d) = if memb i L then Some (f i) else dget i d.
Proof.
  induction L as [|x L IH]; intros d i; simpl; auto. rewrite IH. unfold memb. simpl. fold (memb i L). rewrite dget_dset.
  destruct (memb i L); [rewrite orb_true_r; auto|]. rewrite orb_false_r. destruct (Nat.eqb_spec i x) as [->|]; auto.
Qed.
Lemma memb_in : forall x l, memb x l = true <-> In x l.
Proof. intros. unfold memb. rewrite existsb_exists. split; [intros [y [H E]]; apply Nat.eqb_eq in E; subst; auto|intros H; exists x; split; auto; apply Nat.eqb_refl]. Qed.
Lemma init_agree : forall m L, (forall i, In i L -> i < rows m) -> agree (rows m) L m (init_rows m L) (init_weights m L).
Proof.
  intros m L H i Hi. split; auto. unfold init_rows, init_weights. rewrite (dget_fold _ (fun i => row m i)), (dget_fold _ (fun i => Z.of_nat (weight (row m i)))).
  rewrite (proj2 (memb_in i L) Hi). auto.
Qed.

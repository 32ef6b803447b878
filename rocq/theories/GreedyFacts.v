(** greedy_reduction, greedy_reduction_flat and greedy_two_reduction as a whole *)
From Coq Require Import List Bool Arith ZArith NArith Lia Permutation.
From Verif Require Import Base LinModel LinProofs LinAlg LinUse GreedyModel GreedyProofs.
Import ListNotations.

(** *** all increasing index lists are tried *)
Fixpoint subl (l : list nat) : list (list nat) := match l with [] => [[]] | x :: l => map (cons x) (subl l) ++ subl l end.
Lemma subl_len : forall l, length (subl l) = 2 ^ length l.
Proof. induction l as [|x l IH]; auto. simpl. rewrite app_length, map_length, IH. lia. Qed.
Lemma subl_in : forall n a L, incr L -> (forall i, In i L -> a <= i < a + n) -> In L (subl (seq a n)).
Proof.
  induction n as [|n IH]; intros a L HI HB; simpl.
  - destruct L as [|x L]; auto. specialize (HB x (or_introl eq_refl)). lia.
  - apply in_or_app. destruct L as [|x L]; [right; apply IH; auto; intros i []|]. destruct HI as [H1 H2]. rewrite Forall_forall in H1.
    destruct (Nat.eq_dec x a) as [->|N].
    + left. apply in_map. apply IH; auto. intros i Hi. assert (A := H1 i Hi). assert (B := HB i (or_intror Hi)). lia.
    + right. apply IH; [split; auto; apply Forall_forall; auto|]. intros i Hi. assert (A := HB x (or_introl eq_refl)). assert (B := HB i Hi).
      destruct Hi as [->|Hi]; [lia|]. assert (C := H1 i Hi). lia.
Qed.

Section Count.
  Variables (m : mat) (rv : bool).
  Hypothesis W : wfm m.
  Notation r := (rows m).
  Definition exts (e : list nat * list bool) : combsT := map (fun k => (fst e ++ [k], zipx (snd e) (row m k))) (krange rv (maxl (fst e)) r).
  Definition nohit (e : list nat * list bool) : Prop := weight (snd e) <> 1.
  Lemma inner_form : forall idx l ks acc it,
    match fms_inner m idx l ks acc it with
    | inl x => exists k, In k ks /\ x = idx ++ [k] /\ weight (zipx l (row m k)) = 1
    | inr (acc', it') => acc' = acc ++ map (fun k => (idx ++ [k], zipx l (row m k))) ks /\ it' = (it + N.of_nat (length ks))%N /\
        Forall nohit (map (fun k => (idx ++ [k], zipx l (row m k))) ks)
    end.
  Proof.
    intros idx l. induction ks as [|k ks IH]; intros acc it; cbn [fms_inner].
    - rewrite app_nil_r. split; auto. split; [simpl; lia|constructor].
    - destruct (Nat.eqb_spec (weight (zipx l (row m k))) 1) as [E|E]; [exists k; simpl; auto|].
      specialize (IH (acc ++ [(idx ++ [k], zipx l (row m k))]) (it + 1)%N). destruct (fms_inner _ _ _ _ _ _) as [x|[acc' it']].
      + destruct IH as [k' [H1 H2]]. exists k'. split; auto. right. auto.
      + destruct IH as [-> [-> F]]. split; [rewrite <- app_assoc; reflexivity|]. split; [cbn [length]; lia|]. constructor; auto.
  Qed.
  Lemma outer_form : forall cs acc it, (it + N.of_nat (length (flat_map exts cs)) <= 100000)%N ->
    match fms_outer rv m r cs acc it with
    | inl None => False
    | inl (Some x) => True
    | inr (acc', it') => acc' = acc ++ flat_map exts cs /\ it' = (it + N.of_nat (length (flat_map exts cs)))%N /\ Forall nohit (flat_map exts cs)
    end.
  Proof.
    induction cs as [|[idx l] cs IH]; intros acc it B; cbn [fms_outer flat_map].
    - rewrite app_nil_r. split; auto. split; [simpl; lia|constructor].
    - assert (F := inner_form idx l (krange rv (maxl idx) r) acc it). destruct (fms_inner _ _ _ _ _ _) as [x|[acc' it']]; auto.
      destruct F as [-> [-> F]]. cbn [flat_map] in B. rewrite app_length in B. unfold exts at 1 in B. cbn [fst snd] in B. rewrite map_length in B.
      destruct (N.ltb_spec 100000 (it + N.of_nat (length (krange rv (maxl idx) r)))) as [X|X]; [lia|].
      specialize (IH (acc ++ map (fun k => (idx ++ [k], zipx l (row m k))) (krange rv (maxl idx) r)) (it + N.of_nat (length (krange rv (maxl idx) r)))%N ltac:(lia)).
      destruct (fms_outer _ _ _ _ _ _) as [[x|]|[acc'' it'']]; auto. destruct IH as [-> [-> F2]]. unfold exts at 1 3 5. cbn [fst snd]. split; [rewrite <- app_assoc; reflexivity|].
      split; [rewrite app_length, map_length; lia|]. apply Forall_app. auto.
  Qed.
  Lemma krange_all : forall mx n k, mx < k < n -> In k (krange rv mx n).
  Proof. intros mx n k H. unfold krange. assert (X : In k (seq (mx + 1) (n - (mx + 1)))) by (apply in_seq; lia). destruct rv; auto. apply in_rev in X. auto. Qed.
  Lemma krange_nodup : forall mx n, NoDup (krange rv mx n).
  Proof. intros. unfold krange. destruct rv; [apply NoDup_rev|]; apply seq_NoDup. Qed.
  Lemma keys_exts : forall cs x, In x (map fst (flat_map exts cs)) <-> exists idx k, In idx (map fst cs) /\ In k (krange rv (maxl idx) r) /\ x = idx ++ [k].
  Proof.
    intros cs x. rewrite in_map_iff. split.
    - intros [e [<- H]]. apply in_flat_map in H. destruct H as [e' [H1 H2]]. unfold exts in H2. apply in_map_iff in H2. destruct H2 as [k [<- Hk]]. exists (fst e'), k.
      split; [apply in_map; auto|auto].
    - intros [idx [k [H1 [H2 ->]]]]. apply in_map_iff in H1. destruct H1 as [e [<- He]]. exists (fst e ++ [k], zipx (snd e) (row m k)). split; auto.
      apply in_flat_map. exists e. split; auto. unfold exts. apply in_map_iff. exists k. auto.
  Qed.
  Lemma keys_nodup : forall cs, NoDup (map fst cs) -> NoDup (map fst (flat_map exts cs)).
  Proof.
    induction cs as [|e cs IH]; intros N; simpl; [constructor|]. inversion N as [|? ? N1 N2]; subst. rewrite map_app. apply nodup_app; auto.
    - unfold exts. rewrite map_map. apply FinFun.Injective_map_NoDup; [|apply krange_nodup]. intros a b E. apply app_inj_tail in E. tauto.
    - intros x H1 H2. unfold exts in H1. rewrite map_map in H1. apply in_map_iff in H1. destruct H1 as [k [<- Hk]]. apply keys_exts in H2.
      destruct H2 as [idx [k' [H3 [_ E]]]]. cbn [fst] in E. apply app_inj_tail in E. destruct E as [E _]. subst idx. contradiction.
  Qed.
  Lemma app_last_incr : forall L, L <> [] -> incr L -> exists L' k, L = L' ++ [k] /\ incr L' /\ forall x, In x L' -> x < k.
  Proof.
    intros L H. destruct (exists_last H) as [L' [k ->]]. intros I. exists L', k. split; auto. clear H. induction L' as [|x L' IH]; simpl in *; [split; [auto|intros x []]|].
    destruct I as [I1 I2]. destruct (IH I2) as [A B]. apply Forall_app in I1. destruct I1 as [I0 I1]. inversion I1; subst. split; [split; auto|]. intros y [<-|Hy]; auto.
  Qed.
  Lemma maxl_lt : forall L k, L <> [] -> (forall x, In x L -> x < k) -> maxl L < k.
  Proof.
    intros L k NE H. unfold maxl. enough (G : forall L a, a < k -> (forall x, In x L -> x < k) -> fold_left Nat.max L a < k).
    - apply G; auto. destruct L as [|x L]; [congruence|]. specialize (H x (or_introl eq_refl)). lia.
    - clear. induction L as [|x L IH]; intros a Ha H; simpl; auto. apply IH; [|intros; apply H; right; auto]. specialize (H x (or_introl eq_refl)). lia.
  Qed.
  (** [seen]: all keys generated before and in this round *)
  Lemma loop_complete : forall fuel n cs it seen, (N.of_nat (2 ^ r) <= 65536)%N -> 1 <= n -> Forall (entry m) cs -> Forall (fun e => length (fst e) = n) cs -> NoDup (map fst cs) ->
    (forall L, good_idx m L -> length L = n -> In L (map fst cs)) ->
    NoDup (seen ++ map fst cs) -> (forall L, In L seen -> good_idx m L /\ length L < n) -> (it <= N.of_nat (length seen + length cs))%N ->
    fms_loop fuel rv m r cs it = Ok None -> forall L, good_idx m L -> n < length L -> weight (sumvec m L) <> 1.
  Proof.
    induction fuel as [|f IH]; intros n cs it seen R16 Hn FC LC NC CC NS SS IT E L GL HL; [discriminate|]. cbn [fms_loop] in E.
    assert (Fx : Forall (entry m) (flat_map exts cs) /\ Forall (fun e => length (fst e) = S n) (flat_map exts cs)).
    { split; apply Forall_forall; intros e He; apply in_flat_map in He; destruct He as [e0 [H0 H1]]; unfold exts in H1; apply in_map_iff in H1; destruct H1 as [k [<- Hk]];
        rewrite Forall_forall in FC, LC; destruct (FC e0 H0) as [G S]; apply krange_in in Hk.
      - split; cbn [fst snd]; [apply snoc_good; auto|rewrite S; apply sumvec_snoc; auto; lia].
      - cbn [fst]. rewrite app_length, (LC e0 H0). simpl. lia. }
    destruct Fx as [FE LE].
    assert (NX := keys_nodup cs NC).
    assert (NS2 : NoDup ((seen ++ map fst cs) ++ map fst (flat_map exts cs))).
    { apply nodup_app; auto. intros x H1 H2. apply in_map_iff in H2. destruct H2 as [e [<- He]]. rewrite Forall_forall in LE. specialize (LE e He).
      apply in_app_or in H1. destruct H1 as [H1|H1]; [apply SS in H1; lia|]. apply in_map_iff in H1. destruct H1 as [e1 [E1 H1]]. rewrite Forall_forall in LC. specialize (LC e1 H1). rewrite E1 in LC. lia. }
    assert (CNT : (N.of_nat (length seen + length cs + length (flat_map exts cs)) <= 65536)%N).
    { assert (X := NoDup_incl_length NS2 (l' := subl (seq 0 r))). rewrite subl_len, seq_length, !app_length, !map_length in X.
      apply (N.le_trans _ (N.of_nat (2 ^ r))); auto. enough (length seen + length cs + length (flat_map exts cs) <= 2 ^ r) by lia. apply X. intros y Hy.
      assert (GY : good_idx m y).
      { apply in_app_or in Hy. destruct Hy as [Hy|Hy]; [apply in_app_or in Hy; destruct Hy as [Hy|Hy]; [apply SS; auto|]|];
          apply in_map_iff in Hy; destruct Hy as [e [<- He]]; rewrite Forall_forall in FC, FE; [apply FC|apply FE]; auto. }
      destruct GY as [GI [_ GB]]. apply subl_in; auto. intros i Hi. specialize (GB i Hi). lia. }
    assert (O := outer_form cs [] it). assert (B : (it + N.of_nat (length (flat_map exts cs)) <= 100000)%N) by lia.
    specialize (O B).
    destruct (fms_outer rv m r cs [] it) as [[x|]|[cs' it']]; [discriminate|contradiction|]. destruct O as [-> [-> NH]]. cbn [app] in E.
    assert (CC2 : forall L, good_idx m L -> length L = S n -> In L (map fst (flat_map exts cs))).
    { intros L0 [GI [GN GB]] LL. destruct (app_last_incr L0 GN GI) as [L1 [k [-> [I1 B1]]]]. rewrite app_length in LL. simpl in LL. apply keys_exts.
      assert (N1 : L1 <> []) by (intros ->; simpl in LL; lia).
      exists L1, k. split; [|split; auto].
      - apply CC; [|lia]. split; auto. split; auto. intros i Hi. apply GB, in_or_app. auto.
      - apply krange_all. split; [apply maxl_lt; auto|]. apply GB, in_or_app. right. left. auto. }
    assert (ONE : forall L, good_idx m L -> length L = S n -> weight (sumvec m L) <> 1).
    { intros L0 G0 L0n. apply CC2 in L0n; auto. apply in_map_iff in L0n. destruct L0n as [e [<- He]]. rewrite Forall_forall in FE, NH. destruct (FE e He) as [_ <-]. apply (NH e He). }
    destruct (Nat.eq_dec (length L) (S n)) as [EL|NL]; [auto|].
    destruct (flat_map exts cs) as [|e0 cs0] eqn:EX.
    - (* nothing of length n+1, so nothing longer *)
      exfalso. destruct GL as [GI [GN GB]].
      assert (Q : exists P, good_idx m P /\ length P = S n).
      { clear -GI GN GB HL NL. assert (HL' : S n <= length L) by lia. clear HL NL. induction L as [|k L IHL] using rev_ind; [simpl in HL'; lia|].
        rewrite app_length in HL'. simpl in HL'. destruct (Nat.eq_dec (length L + 1) (S n)) as [E|E]; [exists (L ++ [k]); split; [split; auto|rewrite app_length; simpl; lia]|].
        apply IHL; try lia.
        - destruct (app_last_incr (L ++ [k]) GN GI) as [L2 [k2 [E2 [I2 _]]]]. apply app_inj_tail in E2. destruct E2 as [-> _]. auto.
        - intros ->. simpl in HL', E. lia.
        - intros i Hi. apply GB, in_or_app. auto. }
      destruct Q as [P [GP LP]]. destruct (CC2 P GP LP).
    - apply (IH (S n) (e0 :: cs0) (it + N.of_nat (length (e0 :: cs0)))%N (seen ++ map fst cs)); auto; try lia.
      + intros L0 H0. apply in_app_or in H0. destruct H0 as [H0|H0]; [destruct (SS L0 H0); split; auto; lia|]. apply in_map_iff in H0. destruct H0 as [e [<- He]].
        rewrite Forall_forall in FC, LC. split; [apply FC; auto|rewrite (LC e He); lia].
      + rewrite app_length, map_length. lia.
  Qed.
  Theorem find_complete : r <= 16 -> find_minimal_sums rv m = Ok None -> forall L, NoDup L -> L <> [] -> (forall i, In i L -> i < r) -> weight (sumvec m L) <> 1.
  Proof.
    intros R16 E L N NE B. unfold find_minimal_sums in E. destruct (existsb _ m) eqn:X; [discriminate|].
    (* sort the list: the sum depends on the set only *)
    set (S := filter (fun i => memb i L) (seq 0 r)). assert (P : Permutation L S).
    { apply NoDup_Permutation; auto; [apply NoDup_filter, seq_NoDup|]. intros x. unfold S. rewrite filter_In, in_seq, memb_in. split; [intros H; split; auto; apply B in H; lia|tauto]. }
    assert (ES : sumvec m L = sumvec m S) by (unfold sumvec; apply map_ext; intros j; apply xsuml_perm; auto). rewrite ES.
    assert (GS : good_idx m S).
    { split; [|split].
      - unfold S. clear. generalize 0. induction r as [|n IH]; intros a; simpl; auto. destruct (memb a L); auto. simpl. split; auto.
        apply Forall_forall. intros y Hy. apply filter_In in Hy. destruct Hy as [Hy _]. apply in_seq in Hy. lia.
      - intros E0. rewrite E0 in P. apply Permutation_sym, Permutation_nil in P. congruence.
      - intros i Hi. apply B. apply (Permutation_in _ (Permutation_sym P)). auto. }
    destruct (Nat.eq_dec (length S) 1) as [E1|N1].
    - destruct S as [|i [|? ?]]; try discriminate. destruct GS as [_ [_ GB]]. rewrite (sumvec_one m W) by (apply GB; left; auto). intros WE.
      assert (Y : existsb (fun r => Nat.eqb (weight r) 1) m = true); [|congruence]. apply existsb_exists. exists (row m i). split; [|apply Nat.eqb_eq; auto].
      apply nth_In. apply GB. left. auto.
    - destruct (start_entries m W) as [SA SB]. apply (loop_complete (Datatypes.S r) 1 (map (fun i => ([i], row m i)) (seq 0 r)) 0%N []); auto.
      + assert (PW : 2 ^ r <= 2 ^ 16) by (apply Nat.pow_le_mono_r; lia). assert (E16 : N.of_nat (2 ^ 16) = 65536%N) by (vm_compute; reflexivity). lia.
      + rewrite map_map. simpl. apply FinFun.Injective_map_NoDup; [|apply seq_NoDup]. intros a b E0. congruence.
      + intros L0 [_ [_ GB]] L1. destruct L0 as [|i [|? ?]]; try discriminate. rewrite map_map. apply in_map_iff. exists i. split; auto. apply in_seq. specialize (GB i (or_introl eq_refl)). lia.
      + rewrite map_map. simpl. apply FinFun.Injective_map_NoDup; [|apply seq_NoDup]. intros a b E0. congruence.
      + intros L0 [].
      + lia.
      + destruct GS as [_ [GN _]]. destruct S as [|? [|? ?]]; simpl in *; try congruence; lia.
  Qed.
End Count.

(** *** find_2_minimal_sums *)
Section Two.
  Variables (m : mat).
  Hypothesis W : wfm m.
  Notation r := (rows m).
  Notation ex := (exts m false).
  Lemma f2_inner_form : forall idx l ks s1 acc it,
    match f2_inner m idx l ks s1 acc it with
    | inl (x, y) => exists l1 k l2, ks = l1 ++ k :: l2 /\ y = idx ++ [k] /\ weight (zipx l (row m k)) = 1 /\
        (s1 = Some x \/ exists k', In k' l1 /\ x = idx ++ [k'] /\ weight (zipx l (row m k')) = 1)
    | inr (s1', acc', it') => acc' = acc ++ map (fun k => (idx ++ [k], zipx l (row m k))) ks /\
        (s1' = s1 \/ exists k', In k' ks /\ s1' = Some (idx ++ [k']) /\ weight (zipx l (row m k')) = 1)
    end.
  Proof.
    intros idx l. induction ks as [|k ks IH]; intros s1 acc it; cbn [f2_inner].
    - rewrite app_nil_r. auto.
    - destruct (Nat.eqb_spec (weight (zipx l (row m k))) 1) as [E|E].
      + destruct s1 as [x|]; [exists [], k, ks; auto|]. specialize (IH (Some (idx ++ [k])) (acc ++ [(idx ++ [k], zipx l (row m k))]) (it + 1)%N).
        destruct (f2_inner _ _ _ _ _ _ _) as [[x y]|[[s1' acc'] it']].
        * destruct IH as [l1 [k0 [l2 [-> [-> [Hw C]]]]]]. exists (k :: l1), k0, l2. split; auto. split; auto. split; auto. right.
          destruct C as [C|[k' [Hk' C]]]; [inversion C; subst; exists k; simpl; auto|exists k'; simpl; auto].
        * destruct IH as [-> C]. split; [rewrite <- app_assoc; reflexivity|]. right. destruct C as [->|[k' [Hk' C]]]; [exists k; simpl; auto|exists k'; simpl; auto].
      + specialize (IH s1 (acc ++ [(idx ++ [k], zipx l (row m k))]) (it + 1)%N). destruct (f2_inner _ _ _ _ _ _ _) as [[x y]|[[s1' acc'] it']].
        * destruct IH as [l1 [k0 [l2 [-> [-> [Hw C]]]]]]. exists (k :: l1), k0, l2. split; auto. split; auto. split; auto.
          destruct C as [C|[k' [Hk' C]]]; auto. right. exists k'. simpl; auto.
        * destruct IH as [-> C]. split; [rewrite <- app_assoc; reflexivity|]. destruct C as [->|[k' [Hk' C]]]; auto. right. exists k'; simpl; auto.
  Qed.
  Lemma f2_outer_form : forall cs s1 acc it, Forall (entry m) cs ->
    match f2_outer m r cs s1 acc it with
    | inl None => True
    | inl (Some (x, y)) => exists A B, map fst (flat_map ex cs) = A ++ y :: B /\ hit m y /\ (s1 = Some x \/ (In x A /\ hit m x))
    | inr (s1', acc', it') => acc' = acc ++ flat_map ex cs /\ (s1' = s1 \/ exists x, s1' = Some x /\ In x (map fst (flat_map ex cs)) /\ hit m x)
    end.
  Proof.
    induction cs as [|[idx l] cs IH]; intros s1 acc it FC; cbn [f2_outer flat_map].
    - rewrite app_nil_r. auto.
    - inversion FC as [|? ? [G S] FC']; subst. cbn [fst snd] in G, S. subst l.
      assert (F := f2_inner_form idx (sumvec m idx) (krange false (maxl idx) r) s1 acc it).
      assert (HT : forall k, In k (krange false (maxl idx) r) -> weight (zipx (sumvec m idx) (row m k)) = 1 -> hit m (idx ++ [k])) by (intros k Hk; apply snoc_hit; auto; eapply krange_in; eauto).
      assert (KE : map fst (ex (idx, sumvec m idx)) = map (fun k => idx ++ [k]) (krange false (maxl idx) r)) by (unfold exts; rewrite map_map; reflexivity).
      destruct (f2_inner _ _ _ _ _ _ _) as [[x y]|[[s1' acc'] it']].
      + destruct F as [l1 [k [l2 [EK [-> [Hw C]]]]]]. exists (map (fun k => idx ++ [k]) l1), (map (fun k => idx ++ [k]) l2 ++ map fst (flat_map ex cs)).
        split; [rewrite map_app, KE, EK, map_app; cbn [map]; rewrite <- app_assoc; reflexivity|]. split; [apply HT; auto; rewrite EK; apply in_or_app; right; left; auto|].
        destruct C as [C|[k' [Hk' [-> C]]]]; auto. right. split; [apply (in_map (fun k => idx ++ [k])); auto|]. apply HT; auto. rewrite EK. apply in_or_app. auto.
      + destruct F as [-> C]. destruct (N.ltb 100000 it'); auto.
        specialize (IH s1' (acc ++ map (fun k => (idx ++ [k], zipx (sumvec m idx) (row m k))) (krange false (maxl idx) r)) it' FC').
        destruct (f2_outer _ _ _ _ _ _) as [[[x y]|]|[[s2 acc2] it2]]; auto.
        * destruct IH as [A [B [EA [HY D]]]]. exists (map fst (ex (idx, sumvec m idx)) ++ A), B. split; [rewrite map_app, EA, <- app_assoc; reflexivity|]. split; auto.
          destruct D as [D|[D1 D2]]; [|right; split; auto; apply in_or_app; auto]. destruct C as [C|[k' [Hk' [C1 C2]]]]; [left; congruence|].
          right. assert (EX : x = idx ++ [k']) by congruence. subst x. split; [apply in_or_app; left; rewrite KE; apply (in_map (fun k => idx ++ [k])); auto|apply HT; auto].
        * destruct IH as [-> D]. split; [unfold exts at 1; cbn [fst snd]; rewrite <- app_assoc; reflexivity|]. destruct D as [->|[x [E1 [E2 E3]]]].
          { destruct C as [->|[k' [Hk' [C1 C2]]]]; auto. right. exists (idx ++ [k']). split; auto. split; [|apply HT; auto].
            rewrite map_app. apply in_or_app. left. rewrite KE. apply (in_map (fun k => idx ++ [k])); auto. }
          { right. exists x. split; auto. split; auto. rewrite map_app. apply in_or_app. auto. }
  Qed.
  Lemma f2_loop_ok : forall fuel n cs s1 it, n + fuel = S (S r) -> Forall (entry m) cs -> Forall (fun e => length (fst e) = n) cs -> NoDup (map fst cs) -> (cs <> [] \/ fuel <> 0) ->
    (forall x, s1 = Some x -> hit m x /\ length x <= n) ->
    exists o, f2_loop fuel m r cs s1 it = Ok o /\ forall x y, o = Some (x, y) -> hit m x /\ hit m y /\ x <> y.
  Proof.
    induction fuel as [|f IH]; intros n cs s1 it E FC LC NC NE HS.
    - exfalso. destruct NE as [NE|NE]; [|lia]. destruct cs as [|e cs]; [congruence|]. inversion FC as [|? ? [G _] _]; subst. inversion LC; subst. apply good_len in G. lia.
    - cbn [f2_loop]. assert (O := f2_outer_form cs s1 [] it FC).
      assert (Fx : Forall (entry m) (flat_map ex cs) /\ Forall (fun e => length (fst e) = S n) (flat_map ex cs)).
      { split; apply Forall_forall; intros e He; apply in_flat_map in He; destruct He as [e0 [H0 H1]]; unfold exts in H1; apply in_map_iff in H1; destruct H1 as [k [<- Hk]];
          rewrite Forall_forall in FC, LC; destruct (FC e0 H0) as [G S]; apply krange_in in Hk.
        - split; cbn [fst snd]; [apply snoc_good; auto|rewrite S; apply sumvec_snoc; auto; lia].
        - cbn [fst]. rewrite app_length, (LC e0 H0). simpl. lia. }
      destruct Fx as [FE LE]. assert (NX := keys_nodup m false cs NC).
      assert (KL : forall x, In x (map fst (flat_map ex cs)) -> length x = S n) by (intros x Hx; apply in_map_iff in Hx; destruct Hx as [e [<- He]]; rewrite Forall_forall in LE; auto).
      destruct (f2_outer m r cs s1 [] it) as [[[x y]|]|[[s1' cs'] it']].
      + exists (Some (x, y)). split; auto. intros x0 y0 E0. inversion E0; subst x0 y0. destruct O as [A [B [EA [HY D]]]].
        assert (LY : length y = S n) by (apply KL; rewrite EA; apply in_or_app; right; left; auto).
        destruct D as [D|[D1 D2]].
        * destruct (HS x D) as [HX LX]. split; auto. split; auto. intros ->. lia.
        * split; auto. split; auto. intros ->. rewrite EA in NX. apply NoDup_remove_2 in NX. apply NX. apply in_or_app. auto.
      + exists None. split; auto. intros; discriminate.
      + destruct O as [-> D]. cbn [app]. destruct (flat_map ex cs) as [|e0 cs0] eqn:EX.
        * exists None. split; auto. intros; discriminate.
        * apply (IH (S n)); auto; [lia|left; discriminate|]. intros x Ex. destruct D as [D|[x' [D1 [D2 D3]]]].
          { destruct (HS x) as [HX LX]; [congruence|]. split; auto. }
          { assert (x = x') by congruence. subst x'. split; auto. rewrite (KL x D2). auto. }
  Qed.
  Lemma find2_ok : exists o, find_2_minimal_sums m = Ok o /\ forall x y, o = Some (x, y) -> hit m x /\ hit m y /\ x <> y.
  Proof.
    destruct (start_entries m W) as [SA SB]. unfold find_2_minimal_sums. apply (f2_loop_ok _ 1); auto; try lia.
    - rewrite map_map. simpl. apply FinFun.Injective_map_NoDup; [|apply seq_NoDup]. intros a b E0. congruence.
    - intros; discriminate.
  Qed.
End Two.

(** *** replaying additions *)
Section Local.
  Variables (r c : nat).
  Lemma replay_rect : forall ops M S, rect r c M -> adds_ok S ops -> (forall i, In i S -> i < r) -> rect r c (replay_adds ops M).
  Proof. intros. apply track_rect; auto. apply Forall_forall. intros ab Hab. destruct (H0 ab Hab) as [A [B C]]. split; auto. Qed.
  Lemma replay_out : forall ops M S i j, rect r c M -> adds_ok S ops -> (forall i, In i S -> i < r) -> ~ In i S -> get (replay_adds ops M) i j = get M i j.
  Proof.
    induction ops as [|[a b] ops IH]; intros M S i j R A B N; auto. destruct (A (a, b) (or_introl eq_refl)) as [Ha [Hb Nab]]. simpl in *.
    rewrite (IH (row_add a b M) S); auto.
    - rewrite (get_row_add r c) by auto. destruct (Nat.eqb_spec i b) as [->|]; [contradiction|auto].
    - apply row_add_rect; auto.
    - intros ab Hab. apply A. right. auto.
  Qed.
  Lemma replay_in : forall ops M M' S, rect r c M -> rect r c M' -> adds_ok S ops -> (forall i, In i S -> i < r) -> (forall i j, In i S -> get M i j = get M' i j) ->
    forall i j, In i S -> get (replay_adds ops M) i j = get (replay_adds ops M') i j.
  Proof.
    induction ops as [|[a b] ops IH]; intros M M' S R R' A B E i j Hi; auto. destruct (A (a, b) (or_introl eq_refl)) as [Ha [Hb Nab]]. simpl in *.
    apply (IH (row_add a b M) (row_add a b M') S); auto; try (apply row_add_rect; auto).
    - intros ab Hab. apply A. right. auto.
    - intros i' j' Hi'. rewrite !(get_row_add r c) by auto. rewrite !E by auto. reflexivity.
  Qed.
End Local.

Section Final.
  Variable m : mat.
  Hypothesis W : wfm m.
  Hypothesis small : (Z.of_nat (cols m) < 10000)%Z.
  Notation r := (rows m). Notation c := (cols m).
  Lemma one_of_sum : forall M i x, rect r c M -> i < r -> weight (sumvec m x) = 1 -> (forall j, get M i j = total m x j) -> one_row M i.
  Proof.
    intros M i x R Hi Hw HT. split; [unfold rows; rewrite (proj1 R); auto|]. rewrite <- Hw. f_equal. apply nth_ext with (d := false) (d' := false).
    - rewrite (rect_row r c), sumvec_len; auto.
    - intros j Hj. rewrite (rect_row r c) in Hj by auto. rewrite sumvec_nth by auto. apply HT.
  Qed.
  Definition adds_fine (ops : list (nat * nat)) : Prop := forall ab, In ab ops -> fst ab < r /\ snd ab < r /\ fst ab <> snd ab.
  Lemma fine_of : forall S ops, (forall i, In i S -> i < r) -> adds_ok S ops -> adds_fine ops.
  Proof. intros S ops H A ab Hab. destruct (A ab Hab) as [X [Y Z]]. auto. Qed.
  Theorem greedy_ok : exists o, greedy_reduction m = Ok o /\
    match o with
    | Some ops => adds_fine ops /\ exists i, one_row (replay_adds ops m) i
    | None => find_minimal_sums false m = Ok None
    end.
  Proof.
    unfold greedy_reduction. destruct (find_ok m W false) as [o [E H]]. rewrite E. cbn [bind]. destruct o as [idx|]; [|exists None; auto].
    destruct idx as [|i0 idx]; [exists (Some []); split; auto; split; [intros ab []|exact H]|]. destruct H as [[HI [HN HB]] [HL HW]].
    destruct (greedy_loop_ok r c small (length (i0 :: idx)) (i0 :: idx) m _ _ [] (le_n _) W (incr_nodup _ HI) HN (init_agree m _ HB)) as [ops [i [E1 [Hi [AO [RO T]]]]]].
    rewrite E1. cbn [bind app]. exists (Some ops). split; auto. split; [eapply fine_of; eauto|]. exists i. apply (one_of_sum _ i (i0 :: idx)); auto.
  Qed.
  (** what flat_indices gives for a set of rows *)
  Lemma flat_ok : forall L, NoDup L -> L <> [] -> (forall i, In i L -> i < r) -> exists ops i, flat_indices m L = Ok (ops, Some i) /\ In i L /\ adds_ok L ops /\
    forall j, get (replay_adds ops m) i j = total m L j.
  Proof.
    intros L N NE B. unfold flat_indices. destruct L as [|x L]; [congruence|].
    destruct (flat_loop_ok r c small (length (x :: L)) (x :: L) [] m (init_rows m (x :: L)) (init_weights m (x :: L)) []) as [ops [i [E [Hi [AO [RO T]]]]]]; rewrite ?app_nil_r; auto.
    { simpl. lia. } { apply init_agree. auto. }
    rewrite app_nil_r in *. rewrite E. cbn [bind app snd fst]. exists ops, i. auto.
  Qed.
  Theorem greedy_flat_ok : exists o, greedy_reduction_flat m = Ok o /\
    match o with
    | Some ops => adds_fine ops /\ exists i, one_row (replay_adds ops m) i
    | None => find_minimal_sums true m = Ok None
    end.
  Proof.
    unfold greedy_reduction_flat. destruct (find_ok m W true) as [o [E H]]. rewrite E. cbn [bind]. destruct o as [idx|]; [|exists None; auto].
    destruct idx as [|i0 idx]; [exists (Some []); split; auto; split; [intros ab []|exact H]|]. destruct H as [[HI [HN HB]] [HL HW]].
    destruct (flat_ok (i0 :: idx) (incr_nodup _ HI) HN HB) as [ops [i [E1 [Hi [AO T]]]]].
    rewrite E1. cbn [bind fst]. exists (Some ops). split; auto. split; [eapply fine_of; eauto|]. exists i. apply (one_of_sum _ i (i0 :: idx)); auto. apply (replay_rect r c ops m (i0 :: idx)); auto.
  Qed.

  Variable so : list nat -> list nat.
  Hypothesis SO : forall l, NoDup l -> Permutation (so l) l.
  Lemma total_perm : forall L L' j, Permutation L L' -> total m L j = total m L' j.
  Proof. intros. apply xsuml_perm. auto. Qed.
  Lemma total_app : forall L L' j, total m (L ++ L') j = xorb (total m L j) (total m L' j).
  Proof. intros. apply xsuml_app. Qed.
  Lemma subset_in : forall a b, subset a b = true <-> forall x, In x a -> In x b.
  Proof. intros. unfold subset. rewrite forallb_forall. split; intros H x Hx; apply memb_in || apply (memb_in x b); apply H; auto. Qed.
  Lemma sdiff_in : forall a b x, In x (sdiff a b) <-> In x a /\ ~ In x b.
  Proof. intros. unfold sdiff. rewrite filter_In, negb_true_iff. split; intros [A B]; split; auto. { intros X. apply memb_in in X. congruence. } destruct (memb x b) eqn:E; auto. apply memb_in in E. contradiction. Qed.
  Lemma sinter_in : forall a b x, In x (sinter a b) <-> In x a /\ In x b.
  Proof. intros. unfold sinter. rewrite filter_In, memb_in. tauto. Qed.
  Lemma incr_same : forall a b, incr a -> incr b -> (forall x, In x a <-> In x b) -> a = b.
  Proof.
    induction a as [|x a IH]; intros b HA HB H.
    - destruct b as [|y b]; auto. destruct (proj2 (H y) (or_introl eq_refl)).
    - destruct b as [|y b]; [destruct (proj1 (H x) (or_introl eq_refl))|]. destruct HA as [A1 A2], HB as [B1 B2]. rewrite Forall_forall in A1, B1.
      assert (x = y). { destruct (proj1 (H x) (or_introl eq_refl)) as [->|X]; auto. destruct (proj2 (H y) (or_introl eq_refl)) as [->|Y]; auto. specialize (A1 y Y). specialize (B1 x X). lia. }
      subst y. f_equal. apply IH; auto. intros z. split; intros Hz.
      + destruct (proj1 (H z) (or_intror Hz)) as [->|]; auto. specialize (A1 z Hz). lia.
      + destruct (proj2 (H z) (or_intror Hz)) as [->|]; auto. specialize (B1 z Hz). lia.
  Qed.
  Lemma subset_case : forall s1 s2, hit m s1 -> hit m s2 -> s1 <> s2 -> subset s1 s2 = true -> exists o,
    (let* a := flat_indices m (so s1) in
     let* b := flat_indices m (so (sdiff s2 s1)) in
     match snd b, snd a with
     | None, _ => Ok None
     | Some r1, Some r0 => Ok (Some (fst a ++ fst b ++ [(r0, r1)]))
     | Some _, None => Err IndexError
     end) = Ok (Some o) /\ adds_fine o /\ exists i j, i <> j /\ one_row (replay_adds o m) i /\ one_row (replay_adds o m) j.
  Proof.
    intros s1 s2 [[I1 [N1 B1]] [_ W1]] [[I2 [N2 B2]] [_ W2]] NE SU. rewrite subset_in in SU.
    assert (ND1 := incr_nodup _ I1). assert (ND2 := incr_nodup _ I2). assert (ND3 : NoDup (sdiff s2 s1)) by (apply NoDup_filter; auto).
    assert (P1 := SO s1 ND1). assert (P2 := SO _ ND3).
    assert (NE3 : sdiff s2 s1 <> []).
    { intros X. apply NE. apply incr_same; auto. intros x. split; auto. intros Hx. destruct (in_dec Nat.eq_dec x s1); auto. exfalso.
      assert (Y : In x (sdiff s2 s1)) by (apply sdiff_in; auto). rewrite X in Y. destruct Y. }
    assert (In1 : forall i, In i (so s1) <-> In i s1) by (intros i; split; apply Permutation_in; auto; apply Permutation_sym; auto).
    assert (In2 : forall i, In i (so (sdiff s2 s1)) <-> In i s2 /\ ~ In i s1) by (intros i; rewrite <- sdiff_in; split; apply Permutation_in; auto; apply Permutation_sym; auto).
    destruct (flat_ok (so s1)) as [oa [r0 [Ea [H0 [Aa Ta]]]]].
    { apply (Permutation_NoDup (Permutation_sym P1)); auto. } { intros X. rewrite X in P1. apply Permutation_nil in P1. auto. } { intros i Hi. apply B1, In1. auto. }
    destruct (flat_ok (so (sdiff s2 s1))) as [ob [r1 [Eb [H1 [Ab Tb]]]]].
    { apply (Permutation_NoDup (Permutation_sym P2)); auto. } { intros X. rewrite X in P2. apply Permutation_nil in P2. auto. } { intros i Hi. apply In2 in Hi. apply B2. tauto. }
    rewrite Ea, Eb. cbn [bind fst snd]. eexists. split; [reflexivity|].
    assert (R1 : forall i, In i (so s1) -> i < r) by (intros i Hi; apply B1, In1; auto).
    assert (R2 : forall i, In i (so (sdiff s2 s1)) -> i < r) by (intros i Hi; apply In2 in Hi; apply B2; tauto).
    assert (Nr : r0 <> r1) by (intros X; apply In1 in H0; apply In2 in H1; subst r0; tauto).
    assert (L0 : r0 < r) by auto. assert (L1 : r1 < r) by auto.
    split.
    { intros ab Hab. apply in_app_or in Hab. destruct Hab as [Hab|Hab]; [exact (fine_of _ _ R1 Aa ab Hab)|]. apply in_app_or in Hab. destruct Hab as [Hab|[<-|[]]]; [exact (fine_of _ _ R2 Ab ab Hab)|auto]. }
    assert (RA : rect r c (replay_adds oa m)) by (apply (replay_rect r c oa m (so s1)); auto).
    assert (RB : rect r c (replay_adds ob (replay_adds oa m))) by (apply (replay_rect r c ob _ (so (sdiff s2 s1))); auto).
    rewrite track_x_app, track_x_app. cbn [track_x fold_left fst snd].
    assert (T0 : forall j, get (replay_adds ob (replay_adds oa m)) r0 j = total m s1 j).
    { intros j. rewrite (replay_out r c ob _ (so (sdiff s2 s1))); auto; [rewrite Ta; apply total_perm; auto|]. rewrite In2. apply In1 in H0. tauto. }
    assert (T1 : forall j, get (replay_adds ob (replay_adds oa m)) r1 j = total m (sdiff s2 s1) j).
    { intros j. rewrite (replay_in r c ob (replay_adds oa m) m (so (sdiff s2 s1))); auto; [rewrite Tb; apply total_perm; auto|].
      intros i' j' Hi'. apply (replay_out r c oa m (so s1)); auto. rewrite In1. apply In2 in Hi'. tauto. }
    assert (RF : rect r c (row_add r0 r1 (replay_adds ob (replay_adds oa m)))) by (apply row_add_rect; auto).
    exists r0, r1. split; auto. split.
    - apply (one_of_sum _ r0 s1); auto. intros j. rewrite (get_row_add r c) by auto. rewrite (proj2 (Nat.eqb_neq _ _) Nr). apply T0.
    - apply (one_of_sum _ r1 s2); auto. intros j. rewrite (get_row_add r c) by auto. rewrite Nat.eqb_refl, T0, T1.
      assert (PP : Permutation s2 (sdiff s2 s1 ++ s1)).
      { apply NoDup_Permutation; auto; [apply nodup_app; auto; intros x Hx; apply sdiff_in in Hx; tauto|]. intros x. rewrite in_app_iff, sdiff_in.
        split; [intros Hx; destruct (in_dec Nat.eq_dec x s1); tauto|]. intros [[Hx _]|Hx]; auto. }
      rewrite (total_perm _ _ j PP), total_app. reflexivity.
  Qed.
  Theorem greedy_two_ok : exists o, greedy_two_reduction so m = Ok o /\
    match o with
    | Some ops => adds_fine ops /\ exists i j, i <> j /\ one_row (replay_adds ops m) i /\ one_row (replay_adds ops m) j
    | None => find_2_minimal_sums m = Ok None
    end.
  Proof.
    unfold greedy_two_reduction. destruct (find2_ok m W) as [o [E H]]. rewrite E. cbn [bind]. destruct o as [[s1 s2]|]; [|exists None; auto].
    destruct (H s1 s2 eq_refl) as [H1 [H2 NE]]. clear H E. destruct (subset s2 s1) eqn:S21.
    - rewrite S21. destruct (subset_case s2 s1 H2 H1 ltac:(congruence) S21) as [ops [-> G]]. exists (Some ops). auto.
    - destruct (subset s1 s2) eqn:S12; [destruct (subset_case s1 s2 H1 H2 NE S12) as [ops [-> G]]; exists (Some ops); auto|].
      destruct H1 as [[I1 [N1 B1]] [_ W1]], H2 as [[I2 [N2 B2]] [_ W2]].
      assert (ND1 := incr_nodup _ I1). assert (ND2 := incr_nodup _ I2).
      assert (NDa : NoDup (sinter s1 s2)) by (apply NoDup_filter; auto). assert (NDb : NoDup (sdiff s1 s2)) by (apply NoDup_filter; auto). assert (NDc : NoDup (sdiff s2 s1)) by (apply NoDup_filter; auto).
      assert (Pa := SO _ NDa). assert (Pb := SO _ NDb). assert (Pc := SO _ NDc).
      assert (Ia : forall i, In i (so (sinter s1 s2)) <-> In i s1 /\ In i s2) by (intros i; rewrite <- sinter_in; split; apply Permutation_in; auto; apply Permutation_sym; auto).
      assert (Ib : forall i, In i (so (sdiff s1 s2)) <-> In i s1 /\ ~ In i s2) by (intros i; rewrite <- sdiff_in; split; apply Permutation_in; auto; apply Permutation_sym; auto).
      assert (Ic : forall i, In i (so (sdiff s2 s1)) <-> In i s2 /\ ~ In i s1) by (intros i; rewrite <- sdiff_in; split; apply Permutation_in; auto; apply Permutation_sym; auto).
      assert (SD : forall a b, subset a b = false -> sdiff a b <> []).
      { intros a b X Y. assert (Z : subset a b = true); [|congruence]. apply subset_in. intros x Hx. destruct (in_dec Nat.eq_dec x b); auto. exfalso.
        assert (Q : In x (sdiff a b)) by (apply sdiff_in; auto). rewrite Y in Q. destruct Q. }
      destruct (flat_ok (so (sdiff s1 s2))) as [ob [r1 [Eb [H1 [Ab Tb]]]]].
      { apply (Permutation_NoDup (Permutation_sym Pb)); auto. } { intros X. rewrite X in Pb. apply Permutation_nil in Pb. apply (SD s1 s2); auto. } { intros i Hi. apply Ib in Hi. apply B1. tauto. }
      destruct (flat_ok (so (sdiff s2 s1))) as [oc [r2 [Ec [H2 [Ac Tc]]]]].
      { apply (Permutation_NoDup (Permutation_sym Pc)); auto. } { intros X. rewrite X in Pc. apply Permutation_nil in Pc. apply (SD s2 s1); auto. } { intros i Hi. apply Ic in Hi. apply B2. tauto. }
      assert (Rb : forall i, In i (so (sdiff s1 s2)) -> i < r) by (intros i Hi; apply Ib in Hi; apply B1; tauto).
      assert (Rc : forall i, In i (so (sdiff s2 s1)) -> i < r) by (intros i Hi; apply Ic in Hi; apply B2; tauto).
      assert (Nr : r1 <> r2) by (intros X; apply Ib in H1; apply Ic in H2; subst r1; tauto).
      assert (L1 : r1 < r) by auto. assert (L2 : r2 < r) by auto.
      assert (Pt1 : Permutation s1 (sdiff s1 s2 ++ sinter s1 s2)).
      { apply NoDup_Permutation; auto; [apply nodup_app; auto; intros x Hx Hy; apply sdiff_in in Hx; apply sinter_in in Hy; tauto|]. intros x. rewrite in_app_iff, sdiff_in, sinter_in.
        split; [intros Hx; destruct (in_dec Nat.eq_dec x s2); tauto|tauto]. }
      assert (Pt2 : Permutation s2 (sdiff s2 s1 ++ sinter s1 s2)).
      { apply NoDup_Permutation; auto; [apply nodup_app; auto; intros x Hx Hy; apply sdiff_in in Hx; apply sinter_in in Hy; tauto|]. intros x. rewrite in_app_iff, sdiff_in, sinter_in.
        split; [intros Hx; destruct (in_dec Nat.eq_dec x s1); tauto|tauto]. }
      destruct (so (sinter s1 s2)) as [|x0 La] eqn:EI.
      + (* disjoint *)
        assert (EI' : sinter s1 s2 = []) by (apply Permutation_nil in Pa; auto). rewrite EI', app_nil_r in Pt1, Pt2.
        cbn [flat_indices bind fst snd]. rewrite Eb, Ec. cbn [bind fst snd app]. eexists. split; [reflexivity|]. split.
        { intros ab Hab. apply in_app_or in Hab. destruct Hab as [Hab|Hab]; [exact (fine_of _ _ Rb Ab ab Hab)|exact (fine_of _ _ Rc Ac ab Hab)]. }
        assert (RB : rect r c (replay_adds ob m)) by (apply (replay_rect r c ob m (so (sdiff s1 s2))); auto).
        assert (RC : rect r c (replay_adds oc (replay_adds ob m))) by (apply (replay_rect r c oc _ (so (sdiff s2 s1))); auto).
        rewrite track_x_app. exists r1, r2. split; auto. split.
        * apply (one_of_sum _ r1 s1); auto. intros j. rewrite (replay_out r c oc _ (so (sdiff s2 s1))); auto; [rewrite Tb; apply total_perm; rewrite Pb; symmetry; auto|].
          rewrite Ic. apply Ib in H1. tauto.
        * apply (one_of_sum _ r2 s2); auto. intros j. rewrite (replay_in r c oc (replay_adds ob m) m (so (sdiff s2 s1))); auto.
          { rewrite Tc. apply total_perm. rewrite Pc. symmetry. auto. }
          intros i' j' Hi'. apply (replay_out r c ob m (so (sdiff s1 s2))); auto. rewrite Ib. apply Ic in Hi'. tauto.
      + rewrite <- EI in *. destruct (flat_ok (so (sinter s1 s2))) as [oa [r0 [Ea [H0 [Aa Ta]]]]].
        { apply (Permutation_NoDup (Permutation_sym Pa)); auto. } { rewrite EI. discriminate. } { intros i Hi. apply Ia in Hi. apply B1. tauto. }
        rewrite Ea, Eb, Ec. cbn [bind fst snd app]. eexists. split; [reflexivity|].
        assert (Ra : forall i, In i (so (sinter s1 s2)) -> i < r) by (intros i Hi; apply Ia in Hi; apply B1; tauto).
        assert (L0 : r0 < r) by auto.
        assert (N01 : r0 <> r1) by (intros X; apply Ia in H0; apply Ib in H1; subst r0; tauto). assert (N02 : r0 <> r2) by (intros X; apply Ia in H0; apply Ic in H2; subst r0; tauto).
        split.
        { intros ab Hab. rewrite !in_app_iff in Hab. destruct Hab as [[Hab|[Hab|Hab]]|[<-|[<-|[]]]]; auto; [exact (fine_of _ _ Ra Aa ab Hab)|exact (fine_of _ _ Rb Ab ab Hab)|exact (fine_of _ _ Rc Ac ab Hab)]. }
        rewrite !track_x_app. cbn [track_x fold_left fst snd].
        set (MA := replay_adds oa m). set (MB := replay_adds ob MA). set (MC := replay_adds oc MB).
        assert (RA : rect r c MA) by (apply (replay_rect r c oa m (so (sinter s1 s2))); auto).
        assert (RB : rect r c MB) by (apply (replay_rect r c ob _ (so (sdiff s1 s2))); auto).
        assert (RC : rect r c MC) by (apply (replay_rect r c oc _ (so (sdiff s2 s1))); auto).
        assert (T0 : forall j, get MC r0 j = total m (sinter s1 s2) j).
        { intros j. unfold MC. rewrite (replay_out r c oc _ (so (sdiff s2 s1))); auto; [|rewrite Ic; apply Ia in H0; tauto].
          unfold MB. rewrite (replay_out r c ob _ (so (sdiff s1 s2))); auto; [|rewrite Ib; apply Ia in H0; tauto]. unfold MA. rewrite Ta. apply total_perm. auto. }
        assert (T1 : forall j, get MC r1 j = total m (sdiff s1 s2) j).
        { intros j. unfold MC. rewrite (replay_out r c oc _ (so (sdiff s2 s1))); auto; [|rewrite Ic; apply Ib in H1; tauto].
          unfold MB. rewrite (replay_in r c ob MA m (so (sdiff s1 s2))); auto; [rewrite Tb; apply total_perm; auto|].
          intros i' j' Hi'. apply (replay_out r c oa m (so (sinter s1 s2))); auto. rewrite Ia. apply Ib in Hi'. tauto. }
        assert (T2 : forall j, get MC r2 j = total m (sdiff s2 s1) j).
        { intros j. unfold MC. rewrite (replay_in r c oc MB m (so (sdiff s2 s1))); auto; [rewrite Tc; apply total_perm; auto|].
          intros i' j' Hi'. unfold MB. rewrite (replay_out r c ob _ (so (sdiff s1 s2))); auto; [|rewrite Ib; apply Ic in Hi'; tauto].
          apply (replay_out r c oa m (so (sinter s1 s2))); auto. rewrite Ia. apply Ic in Hi'. tauto. }
        set (MD := row_add r0 r1 MC). assert (RD : rect r c MD) by (apply row_add_rect; auto).
        assert (RF : rect r c (row_add r0 r2 MD)) by (apply row_add_rect; auto).
        exists r1, r2. split; auto. split.
        * apply (one_of_sum _ r1 s1); auto. intros j. rewrite (get_row_add r c) by auto. rewrite (proj2 (Nat.eqb_neq _ _) Nr). unfold MD. rewrite (get_row_add r c) by auto. rewrite Nat.eqb_refl, T0, T1.
          rewrite (total_perm _ _ j Pt1), total_app. reflexivity.
        * apply (one_of_sum _ r2 s2); auto. intros j. rewrite (get_row_add r c) by auto. rewrite Nat.eqb_refl. unfold MD. rewrite !(get_row_add r c) by auto.
          rewrite (proj2 (Nat.eqb_neq r2 r1)) by auto. rewrite (proj2 (Nat.eqb_neq _ _) N01). rewrite T0, T2. rewrite (total_perm _ _ j Pt2), total_app. reflexivity.
  Qed.
End Final.

(** ** statements without the search *)
Definition sums_to_one (m : mat) : Prop := exists L, NoDup L /\ L <> [] /\ (forall i, In i L -> i < rows m) /\ weight (sumvec m L) = 1.
Definition one_reduced (m : mat) (ops : list (nat * nat)) : Prop :=
  (forall ab, In ab ops -> fst ab < rows m /\ snd ab < rows m /\ fst ab <> snd ab) /\ exists i, one_row (replay_adds ops m) i.
Definition two_reduced (m : mat) (ops : list (nat * nat)) : Prop :=
  (forall ab, In ab ops -> fst ab < rows m /\ snd ab < rows m /\ fst ab <> snd ab) /\
  exists i j, i <> j /\ one_row (replay_adds ops m) i /\ one_row (replay_adds ops m) j.
Lemma none_complete : forall m rv, wfm m -> rows m <= 16 -> find_minimal_sums rv m = Ok None -> ~ sums_to_one m.
Proof. intros m rv W B E [L [N [NE [HB HW]]]]. exact (find_complete m rv W B E L N NE HB HW). Qed.
Theorem greedy_spec : forall m, wfm m -> (Z.of_nat (cols m) < 10000)%Z -> exists o, greedy_reduction m = Ok o /\
  match o with Some ops => one_reduced m ops | None => rows m <= 16 -> ~ sums_to_one m end.
Proof. intros m W S. destruct (greedy_ok m W S) as [o [E H]]. exists o. split; auto. destruct o; auto. intros B. eapply none_complete; eauto. Qed.
Theorem greedy_flat_spec : forall m, wfm m -> (Z.of_nat (cols m) < 10000)%Z -> exists o, greedy_reduction_flat m = Ok o /\
  match o with Some ops => one_reduced m ops | None => rows m <= 16 -> ~ sums_to_one m end.
Proof. intros m W S. destruct (greedy_flat_ok m W S) as [o [E H]]. exists o. split; auto. destruct o; auto. intros B. eapply none_complete; eauto. Qed.
Theorem greedy_two_spec : forall so, (forall l, NoDup l -> Permutation (so l) l) -> forall m, wfm m -> (Z.of_nat (cols m) < 10000)%Z ->
  exists o, greedy_two_reduction so m = Ok o /\ forall ops, o = Some ops -> two_reduced m ops.
Proof. intros so SO m W S. destruct (greedy_two_ok m W S so SO) as [o [E H]]. exists o. split; auto. intros ops ->. exact H. Qed.

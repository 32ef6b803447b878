(** phase_block_optimize *)
From Coq Require Import Reals ZArith QArith Qcanon List Bool Arith Lia Permutation FunctionalExtensionality.
From Verif Require Import LinModel PermModel CNum Base ScalarModel GateModel OptModel GraphSem SumLemmas CircSpec GateProofs GateDecomp PermProofs OptTrace OptSem OptStep OptParse OptProofs BlockLane ToddModel BlockModel BlockTab BlockGreedy BlockLoop BlockProofs.
From Verif Require ToddSem ToddProofs ToddCases OptCount.
Import ListNotations.
Open Scope nat_scope.

(** ** dictionaries of a permutation *)
Lemma dlook_tab : forall f m s k, s <= k < s + m -> dlook k (map (fun i => (i, f i)) (seq s m)) = Ok (f k).
Proof.
  intros f. induction m as [|m IH]; intros s k H; [lia|]. cbn [seq map dlook]. destruct (Nat.eqb_spec k s) as [->|N]; auto. apply IH. lia.
Qed.
Lemma dput_tab : forall f v m s k, s <= k < s + m -> dput k v (map (fun i => (i, f i)) (seq s m)) = map (fun i => (i, if Nat.eqb i k then v else f i)) (seq s m).
Proof.
  intros f v. induction m as [|m IH]; intros s k H; [lia|]. cbn [seq map dput]. destruct (Nat.eqb_spec k s) as [->|N].
  - rewrite Nat.eqb_refl. f_equal. apply map_ext_in. intros i Hi. apply in_seq in Hi. rewrite (proj2 (Nat.eqb_neq i s)) by lia. auto.
  - rewrite (proj2 (Nat.eqb_neq s k)) by auto. f_equal. apply IH. lia.
Qed.
(** the position whose content arrives at position [p] *)
Fixpoint spi (sw : list (nat * nat)) (p : nat) : nat := match sw with [] => p | ij :: sw => tau (fst ij) (snd ij) (spi sw p) end.
Fixpoint srho (sw : list (nat * nat)) (q : nat) : nat := match sw with [] => q | ij :: sw => srho sw (tau (fst ij) (snd ij) q) end.
Definition swok (n : nat) (sw : list (nat * nat)) : Prop := forall ij, In ij sw -> fst ij < n /\ snd ij < n /\ fst ij <> snd ij.
Lemma rho_pi : forall sw p, srho sw (spi sw p) = p.
Proof. induction sw as [|ij sw IH]; intros p; auto. cbn [spi srho]. rewrite tau_tau. auto. Qed.
Lemma pi_rho : forall sw p, spi sw (srho sw p) = p.
Proof. induction sw as [|ij sw IH]; intros p; auto. cbn [spi srho]. rewrite IH. apply tau_tau. Qed.
Lemma tau_lt : forall n a b q, a < n -> b < n -> q < n -> tau a b q < n.
Proof. intros. unfold tau. destruct (Nat.eqb q a), (Nat.eqb q b); auto. Qed.
Lemma tau_ge : forall n a b q, a < n -> b < n -> n <= q -> tau a b q = q.
Proof. intros. unfold tau. rewrite !(proj2 (Nat.eqb_neq _ _)) by lia. auto. Qed.
Lemma spi_lt : forall n sw p, swok n sw -> p < n -> spi sw p < n.
Proof. intros n. induction sw as [|ij sw IH]; intros p H L; auto. cbn [spi]. destruct (H ij (or_introl eq_refl)) as [A [B _]]. apply tau_lt; auto. apply IH; auto. intros x Hx. apply H. right; auto. Qed.
Lemma spi_ge : forall n sw p, swok n sw -> n <= p -> spi sw p = p.
Proof. intros n. induction sw as [|ij sw IH]; intros p H L; auto. cbn [spi]. destruct (H ij (or_introl eq_refl)) as [A [B _]]. rewrite IH; auto; [apply (tau_ge n); auto|]. intros x Hx. apply H. right; auto. Qed.
Lemma run_spi : forall A (d : A) n sw a p, swok n sw -> length a = n -> p < n -> nth p (run_swaps d sw a) d = nth (spi sw p) a d.
Proof.
  intros A d n. induction sw as [|[i j] sw IH]; intros a p H L P; auto. change (run_swaps d ((i, j) :: sw) a) with (run_swaps d sw (swap2 d a (i, j))). assert (H' : swok n sw) by (intros x Hx; apply H; right; auto).
  rewrite IH; auto; [|rewrite swap2_len; auto]. rewrite swap2_nth by (rewrite L; apply spi_lt; auto). auto.
Qed.
Lemma swaps_rho : forall sw s x, cden (map gsw sw) s x = s (fun q => x (srho sw q)).
Proof. induction sw as [|[i j] sw IH]; intros s x; auto. cbn [map]. rewrite cden_cons, IH. unfold gsw. cbn [fst snd srho]. rewrite swap_rn. auto. Qed.
Lemma same_swaps : forall n sw sw', swok n sw -> swok n sw' -> (forall p, p < n -> spi sw' p = spi sw p) -> forall s, cden (map gsw sw') s = cden (map gsw sw) s.
Proof.
  intros n sw sw' H H' E s. assert (E' : forall p, spi sw' p = spi sw p). { intros p. destruct (le_lt_dec n p) as [L|L]; auto. rewrite !(spi_ge n); auto. }
  apply state_ext. intros x. rewrite !swaps_rho. f_equal. apply functional_extensionality. intros q. f_equal.
  rewrite <- (pi_rho sw q) at 1. rewrite <- E'. apply rho_pi.
Qed.
Lemma corr_ok : forall n ns sw, swok n sw -> foldM corr_step (map NOTg ns ++ map gsw sw) (map (fun i => (i, i)) (seq 0 n), []) = Ok (map (fun i => (i, spi sw i)) (seq 0 n), map NOTg ns).
Proof.
  intros n ns sw H.
  assert (K1 : forall ns l p nots, foldM corr_step (map NOTg ns ++ l) (p, nots) = foldM corr_step l (p, nots ++ map NOTg ns)).
  { clear. induction ns as [|t ns IH]; intros l p nots; [rewrite app_nil_r; auto|]. cbn [map app foldM]. change (corr_step (p, nots) (NOTg t)) with (Ok (p, nots ++ [NOTg t])). cbn [bind]. rewrite IH, <- app_assoc. auto. }
  assert (K2 : forall sw f nots, swok n sw -> foldM corr_step (map gsw sw) (map (fun i => (i, f i)) (seq 0 n), nots) = Ok (map (fun i => (i, f (spi sw i))) (seq 0 n), nots)).
  { clear. induction sw as [|[i j] sw IH]; intros f nots H; auto. cbn [map foldM]. destruct (H (i, j) (or_introl eq_refl)) as [A [B N]]. cbn [fst snd] in *. unfold corr_step at 1, gsw at 1. cbn [fst snd].
    rewrite (dlook_tab f n 0 i), (dlook_tab f n 0 j) by lia. cbn [bind]. rewrite (dput_tab f _ n 0 i) by lia. rewrite (dput_tab (fun k => if Nat.eqb k i then f j else f k) _ n 0 j) by lia.
    rewrite (IH (fun k => if Nat.eqb k j then f i else if Nat.eqb k i then f j else f k)) by (intros x Hx; apply H; right; auto). do 2 f_equal. apply map_ext. intros k. f_equal. cbn [spi fst snd]. generalize (spi sw k). intros q.
    unfold tau. destruct (Nat.eqb_spec q i), (Nat.eqb_spec q j); subst; auto; congruence. }
  rewrite K1. cbn [app]. apply (K2 sw (fun i => i)); auto.
Qed.
Lemma inv_dict : forall n sw, swok n sw -> dinv (map (fun i => (i, spi sw i)) (seq 0 n)) = map (fun i => (spi sw i, i)) (seq 0 n) /\ perm_dict (map (fun i => (spi sw i, i)) (seq 0 n)).
Proof.
  intros n sw H. assert (ND : NoDup (map (spi sw) (seq 0 n))) by (apply inj_nodup; [intros a b E; rewrite <- (rho_pi sw a), E; apply rho_pi|apply seq_NoDup]). split.
  - rewrite dinv_eq by (rewrite map_map; exact ND). rewrite map_map. auto.
  - unfold perm_dict. rewrite !map_map, map_length, seq_length. cbn [fst snd]. split; [|rewrite map_id; apply Permutation_refl].
    apply nodup_perm_seq; auto; [rewrite map_length, seq_length; auto|]. intros q Hq. apply in_map_iff in Hq. destruct Hq as [i [<- Hi]]. apply in_seq in Hi. apply spi_lt; auto. lia.
Qed.

(** the gates of the result *)
Definition pgate (n : nat) (g : gate) : Prop := bgate n g \/ cgate n g.
Theorem phase_block_ok : forall sh hist n gs ns sw, 2 <= n <= 499 -> (forall k l, Permutation (sh k l) l) -> Forall (bgate n) gs -> (forall t, In t ns -> t < n) -> swok n sw ->
  exists c', phase_block sh hist n gs (map NOTg ns ++ map gsw sw) = Ok c' /\ cqubits c' = n /\ Forall (pgate n) (cgates c') /\
    (forall s, cden (cgates c') s = cden (gs ++ map NOTg ns ++ map gsw sw) s) /\ tcnt (cgates c') <= tcnt gs.
Proof.
  intros sh hist n gs ns sw Hn SH F HN HS. unfold phase_block. rewrite (corr_ok n ns sw HS). cbn [bind]. destruct (inv_dict n sw HS) as [-> PD]. destruct (load_ok n gs F) as [G [E0 T]]. rewrite E0. cbn [bind].
  assert (W := enum_wf n gs F). set (perm := map (fun i => (spi sw i, i)) (seq 0 n)) in *.
  assert (LP : length perm = n) by (unfold perm; rewrite map_length, seq_length; auto).
  destruct (block_loop_ok sh hist n Hn SH (entries G) 0 (enumerate gs) G perm [] [] [] W T (tab_entries n _ G W T)) as [c' [b' [h' [p' [E1 [FF [PP [D C]]]]]]]]; auto; [split; [constructor|intros h []]|]. rewrite E1. cbn [bind].
  assert (PD' : perm_dict p'). { destruct PD as [PK PV]. unfold perm_dict. rewrite <- (Permutation_length PP). split; (eapply Permutation_trans; [apply Permutation_sym, Permutation_map; exact PP|auto]). }
  destruct (swaps_ok p' PD') as [sw' [E2 [R1 [_ R2]]]]. rewrite E2. cbn [bind]. rewrite <- (Permutation_length PP), LP in R1.
  assert (HS' : swok n sw') by (intros ij Hij; specialize (R1 ij Hij); lia).
  eexists. split; [reflexivity|]. cbn [cqubits cgates]. split; auto. change (map (fun ab => GSWAP (fst ab) (snd ab)) sw') with (map gsw sw').
  assert (ES := enum_snd gs 0). fold (enumerate gs) in ES. unfold igate in *. cbn [app] in D, C. rewrite ES in D, C.
  split; [|split].
  - rewrite (app_assoc b'), app_assoc. apply Forall_app. split; [eapply Forall_impl; [|exact FF]; intros g Hg; left; exact Hg|]. apply Forall_app. split; apply Forall_forall; intros g Hg; apply in_map_iff in Hg; destruct Hg as [x [<- Hx]]; right.
    + split; auto.
    + apply HS'. auto.
  - intros s. rewrite (app_assoc b'), app_assoc, (app_assoc _ (map NOTg ns)), cden_app. rewrite (app_assoc gs), (cden_app (gs ++ map NOTg ns)). rewrite (same_swaps n sw sw' HS HS').
    + f_equal. rewrite (cden_app (c' ++ b' ++ h')), D, (cden_app gs). auto.
    + intros p Hp. assert (K := R2 nat 0 (seq 0 n) ltac:(rewrite seq_length, <- (Permutation_length PP); auto) (spi sw p) p).
      rewrite (run_spi nat 0 n) in K; auto; [|apply seq_length]. rewrite !seq_nth in K; auto; [|apply spi_lt; auto|apply spi_lt; auto]. apply K. apply (Permutation_in _ PP). unfold perm. apply in_map_iff. exists p. split; auto. apply in_seq. lia.
  - rewrite (app_assoc b'), app_assoc, ToddSem.tcnt_app. rewrite (ToddSem.tcnt_app (map NOTg ns)).
    assert (Z1 : tcnt (map NOTg ns) = 0) by (clear; induction ns; auto). assert (Z2 : tcnt (map gsw sw') = 0) by (clear; induction sw'; auto). lia.
Qed.

(** ** the whole function *)
Theorem pbo_plain : forall sh hist c, 2 <= cqubits c <= 499 -> (forall k l, Permutation (sh k l) l) -> Forall (bgate (cqubits c)) (cgates c) ->
  exists c', phase_block_optimize sh hist false c = Ok c' /\ cqubits c' = cqubits c /\ Forall (pgate (cqubits c)) (cgates c') /\
    (forall s, cden (cgates c') s = cden (cgates c) s) /\ tcnt (cgates c') <= tcnt (cgates c).
Proof.
  intros sh hist c Hn SH F. destruct (phase_block_ok sh hist (cqubits c) (cgates c) [] [] Hn SH F ltac:(intros t []) ltac:(intros ij [])) as [c' [A [B [C [D E]]]]]. exists c'. cbn [map app] in *. split; auto. split; auto. split; auto. split; auto. intros s. rewrite D, app_nil_r. auto.
Qed.
Lemma ogate_bgate : forall n g, ogate n g -> wg g -> OptCount.q4 g -> bgate n g.
Proof. intros n g O W Q. destruct g; cbn in *; tauto. Qed.
Theorem pbo_pre : forall sh hist c, 2 <= cqubits c <= 499 -> (forall k l, Permutation (sh k l) l) -> Forall (ogate (cqubits c)) (cgates c) -> Forall OptCount.q4 (cgates c) ->
  exists c', phase_block_optimize sh hist true c = Ok c' /\ cqubits c' = cqubits c /\ Forall (pgate (cqubits c)) (cgates c') /\
    eq_phase (cden (cgates c')) (cden (cgates c)) /\ tcnt (cgates c') <= tcnt (cgates c).
Proof.
  intros sh hist c Hn SH F Q. destruct (parse_circuit_sep_ok true 1000 c F) as [c1 [cor [E1 [N1 [W1 [O1 [C1 D1]]]]]]]. destruct (OptCount.parse_sep4 _ _ _ _ _ Q E1) as [Q1 [T1 [ns [sw ->]]]].
  unfold phase_block_optimize. rewrite E1. cbn [bind fst snd]. set (n := cqubits c) in *.
  assert (FB : Forall (bgate n) (cgates c1)) by (rewrite Forall_forall in *; intros g Hg; apply ogate_bgate; auto).
  apply Forall_app in C1. destruct C1 as [CN CS]. rewrite Forall_forall in CN, CS.
  destruct (phase_block_ok sh hist n (cgates c1) ns sw Hn SH FB) as [c' [A [B [P [D T]]]]].
  - intros t Ht. apply (CN (NOTg t)). apply in_map. auto.
  - intros ij Hij. apply (CS (GSWAP (fst ij) (snd ij))). apply in_map_iff. exists ij. auto.
  - exists c'. split; auto. split; auto. split; auto. split; [|lia]. apply (phase_ext _ (cden (cgates c1 ++ map NOTg ns ++ map gsw sw))); auto.
Qed.

(** one qubit *)
Theorem pbo_one : forall sh hist c, cqubits c = 1 -> (forall k l, Permutation (sh k l) l) -> Forall (bgate 1) (cgates c) -> cgates c <> [] -> phase_block_optimize sh hist false c = Err AssertionError.
Proof.
  intros sh hist c N SH F NE. unfold phase_block_optimize, phase_block. rewrite N. assert (K := corr_ok 1 [] [] ltac:(intros ij [])). cbn [map app] in K. rewrite K. cbn [bind]. clear K.
  destruct (load_ok 1 _ F) as [G [E0 T]]. rewrite E0. cbn [bind]. assert (W := enum_wf 1 _ F). assert (ES := enum_snd (cgates c) 0). fold (enumerate (cgates c)) in ES.
  assert (LE := tab_entries 1 _ G W T). destruct (cgates c) as [|g gs] eqn:EC; [congruence|]. cbn [length enumerate combine seq] in LE. destruct (entries G) as [|f]; [cbn in LE; lia|]. cbn [block_loop].
  destruct (forallb is_nil G) eqn:EN; [apply (is_nil_tab 1 _ G W T) in EN; discriminate|].
  destruct (front_round 1 [] [] ltac:(constructor) ltac:(split; [constructor|intros h []])) as [R0 [R [revblock [had2 [Lr [E1 [E2 [LH [B1 _]]]]]]]]]. rewrite E1. cbn [bind]. rewrite E2. cbn [bind]. rewrite LH, Nat.eqb_refl. cbn [negb].
  destruct (greedy_ok 1 _ G W T) as [G2 [newblock [hads2 [L2 [E3 [_ [_ [B2 _]]]]]]]]. rewrite E3. cbn [bind].
  rewrite ToddCases.todd_simp_1; auto. apply Forall_app; split; [apply Forall_rev, blk_todd; auto|apply blk_todd; auto].
Qed.
(** gates that are not supported *)
Definition rejected (g : gate) : Prop :=
  match g with GHAD _ | GCZ _ _ | GCNOT _ _ => False | GZ _ _ p => ~ exists z, p = frac z 4 | _ => True end.
Lemma den_quarter : forall p, Qden (this p) = 1%positive \/ Qden (this p) = 2%positive \/ Qden (this p) = 4%positive -> exists z, p = frac z 4.
Proof.
  intros p H. assert (K : forall k, (Z.pos (Qden (this p)) * k = 4)%Z -> exists z, p = frac z 4).
  { intros k E. exists (Qnum (this p) * k)%Z. apply Qc_is_canon. unfold frac. cbn [this Q2Qc]. rewrite Qred_correct. unfold Qeq. cbn [Qnum Qden]. rewrite <- E. ring. }
  destruct H as [H|[H|H]]; [apply (K 4%Z)|apply (K 2%Z)|apply (K 1%Z)]; rewrite H; reflexivity.
Qed.
Theorem pbo_rejects : forall sh hist c l1 g l2, cgates c = l1 ++ g :: l2 -> Forall (bgate (cqubits c)) l1 -> rejected g -> phase_block_optimize sh hist false c = Err TypeError.
Proof.
  intros sh hist c l1 g l2 EG F RJ. unfold phase_block_optimize, phase_block. assert (K := corr_ok (cqubits c) [] [] ltac:(intros ij [])). cbn [map app] in K. rewrite K. cbn [bind]. clear K.
  assert (EL : load (cqubits c) (cgates c) = Err TypeError); [|rewrite EL; auto]. unfold load, enumerate. rewrite EG, app_length, seq_app.
  assert (EC : forall (A B : Type) (a a' : list A) (b b' : list B), length a = length b -> combine (a ++ a') (b ++ b') = combine a b ++ combine a' b').
  { clear. intros A B. induction a as [|x a IH]; intros a' [|y b] b' E; cbn in *; try discriminate; auto. f_equal. apply IH. lia. }
  rewrite EC by apply seq_length. rewrite DepthProofs.foldM_app. destruct (load_ok _ _ F) as [G [E1 _]]. unfold load, enumerate in E1. rewrite E1. cbn [bind length seq combine foldM].
  assert (ES : load_step G (0 + length l1, g) = Err TypeError); [|rewrite ES; auto]. unfold load_step. cbn [snd]. destruct g; cbn in RJ; try contradiction; auto.
  assert (KD : ~ (Qden (this phase) = 1%positive \/ Qden (this phase) = 2%positive \/ Qden (this phase) = 4%positive)) by (intros KK; apply RJ, den_quarter; auto).
  destruct (Qden (this phase)) as [p|p|]; auto; [|exfalso; auto]. destruct p as [p|p|]; auto; [|exfalso; auto]. destruct p as [p|p|]; auto. exfalso; auto.
Qed.
(** ** greedy_consume_gates on a circuit *)
Theorem greedy_gates : forall n gs, Forall (bgate n) gs ->
  exists G G' block hads rest, load n gs = Ok G /\ greedy_consume_gates G = Ok (G', block, hads) /\ tab n rest G' /\ wf n rest /\
    Forall (ToddSem.todd_gate n) (map snd block) /\ hads_ok n (map snd hads) /\ (gs <> [] -> length rest < length gs) /\
    (forall s, cden gs s = cden (map snd block ++ map snd hads ++ map snd rest) s) /\ tcnt gs = tcnt (map snd block ++ map snd rest).
Proof.
  intros n gs F. destruct (load_ok n gs F) as [G [E0 T]]. assert (W := enum_wf n gs F). destruct (greedy_ok n _ G W T) as [G' [block [hads [L' [E1 [W1 [T1 [B1 [H1 [LT [D [C _]]]]]]]]]]]].
  exists G, G', block, hads, L'. split; auto. split; auto. split; auto. split; auto. split; [apply blk_todd; auto|]. split; auto.
  assert (ES := enum_snd gs 0). fold (enumerate gs) in ES. assert (EL : length (enumerate gs) = length gs) by (rewrite <- ES at 2; rewrite map_length; auto). split; [|split].
  - intros N. rewrite <- EL. apply LT. intros K. apply N. rewrite <- ES, K. auto.
  - intros s. assert (D' := D s). unfold tden in D'. unfold igate in *. rewrite ES, !map_app in D'. exact D'.
  - unfold igate in *. rewrite ES, !map_app, !ToddSem.tcnt_app in C. rewrite ToddSem.tcnt_app.
    assert (Z : tcnt (map snd hads) = 0); [|lia]. assert (A := hads_allhad n _ H1). clear -A. induction (map snd hads) as [|h l IH]; auto. destruct (A h (or_introl eq_refl)) as [q ->]. apply IH. intros x Hx. apply A. right; auto.
Qed.
Theorem basic_opt4 : forall sw c, Forall (ogate (cqubits c)) (cgates c) -> Forall OptCount.q4 (cgates c) ->
  exists c', basic_optimization sw c = Ok c' /\ Forall OptCount.q4 (cgates c') /\ tcnt (cgates c') <= tcnt (cgates c).
Proof.
  intros sw c F Q. destruct (parse_circuit_ok sw 1000 c F) as [c' [E _]]. exists c'. split; [exact E|]. apply (OptCount.parse_circuit4 sw 1000); auto.
Qed.

(** The loop of greedy_consume_gates *)
From Coq Require Import Reals ZArith QArith Qcanon List Bool Arith Lia Permutation.
From Verif Require Import LinModel PermModel CNum Base ScalarModel GateModel OptModel GraphSem SumLemmas CircSpec GateProofs GateDecomp OptTrace OptSem BlockLane BlockModel BlockTab BlockGreedy.
From Verif Require ToddSem.
Import ListNotations.
Open Scope nat_scope.

Lemma vis_front : forall L g, (forall q, onq q (snd g) = true -> vis q g L) -> front g L.
Proof.
  intros L g H a q Ia Oa Og. destruct (H q Og) as [b [M V]]. apply (mt_same q b); auto. apply V. rewrite before_lq by auto. apply lq_in. auto.
Qed.
Theorem greedy_loop_ok : forall fuel n L G block, wf n L -> tab n L G -> blk n block -> length L < fuel ->
  exists G' block' L', greedy_loop fuel G block = Ok (G', block') /\ wf n L' /\ tab n L' G' /\ blk n block' /\ length L' <= length L /\
    (forall g Lr, L' = g :: Lr -> ~ nohad g) /\ (forall s, tden (block ++ L) s = tden (block' ++ L') s) /\
    tcnt (map snd (block ++ L)) = tcnt (map snd (block' ++ L')) /\ (Phad L -> Phad L' /\ cnth L' = cnth L).
Proof.
  induction fuel as [|f IH]; intros n L G block W T HB HF; [lia|]. cbn [greedy_loop].
  assert (K := pass1_ok n L G W T). assert (K1 := fun Lr g (E : L = g :: Lr) => pass1_first n Lr g G). destruct (pass1 G) as [[[hb tba] av] tys] eqn:EP. cbn [fst snd] in K1. destruct K as [Lt [HH [HT HA]]].
  destruct tba as [|g0 tba0].
  - destruct (hpass_ok n L G tys hb hb [] av [] W T (proj1 HH) ltac:(intros q []) ltac:(intros q h Hqh; destruct (proj2 HH q h Hqh) as [Hq Hh]; split; auto; split; auto; lia)) as [[G1 [L1 [E1 [W1 [T1 [LT [D1 [C1 NP]]]]]]]]|[cands [E1 HC]]].
    + intros q i Hi. destruct (HA i Hi) as [g [q' [A [B [C [D E]]]]]]. exists g, q'. auto 10.
    + split; [constructor|intros g []].
    + rewrite E1. cbn [bind]. destruct (IH n L1 G1 block W1 T1 HB ltac:(lia)) as [G' [block' [L' [A [B [C [D [E [F [Hd [Ht Hp]]]]]]]]]]]. exists G', block', L'. split; auto. do 3 (split; auto). split; [lia|]. split; auto. split; [|split].
      * intros s. rewrite <- Hd. apply tden_app2. auto.
      * rewrite <- Ht. rewrite !tcnt_app2. lia.
      * intros P. contradiction.
    + rewrite E1. cbn [bind].
      destruct (cands_all n hb cands L G block false W T HB (proj1 HC)) as [G1 [L1 [block1 [added [E2 [W1 [T1 [B1 [SH [LE [Ad [Fa [D1 C1]]]]]]]]]]]]].
      { intros g Hg. destruct (proj2 HC g Hg) as [A [B C]]. split; auto. split; auto. apply (cand_spec n L tys); auto. split; auto. }
      rewrite E2. cbn [bind]. destruct (shr_Phad L L1 SH) as [SP SC]. destruct added.
      * destruct (Ad eq_refl) as [Ad'|Ad']; [discriminate|]. destruct (IH n L1 G1 block1 W1 T1 B1 ltac:(lia)) as [G' [block' [L' [A [B [C [D [E [F [Hd [Ht Hp]]]]]]]]]]]. exists G', block', L'. split; auto. do 3 (split; auto). split; [lia|]. split; auto. split; [|split].
        -- intros s. rewrite <- Hd. apply D1.
        -- rewrite <- Ht. apply C1.
        -- intros P. destruct (Hp (SP P)). split; auto. congruence.
      * destruct (Fa eq_refl) as [-> [-> ->]]. exists G, block, L. split; auto. do 3 (split; auto). split; auto. split; [|auto].
        intros g Lr EL N. apply (K1 Lr g EL); auto; rewrite <- EL; auto.
  - set (tba := g0 :: tba0) in *.
    destruct (consume_all n tba L G block W T HB (proj1 HT)) as [G1 [L1 [E2 [W1 [T1 [B1 [LE [SH [D1 C1]]]]]]]]].
    { intros g Hg. destruct (proj2 HT g Hg) as [A [B C]]. split; auto. split; auto. apply vis_front. intros q O. apply (C q O). }
    rewrite E2. cbn [bind]. destruct (shr_Phad L L1 SH) as [SP SC].
    destruct (IH n L1 G1 (block ++ tba) W1 T1 B1 ltac:(unfold tba in LE; cbn in LE; lia)) as [G' [block' [L' [A [B [C [D [E [F [Hd [Ht Hp]]]]]]]]]]]. exists G', block', L'. split; auto. do 3 (split; auto). split; [lia|]. split; auto. split; [|split].
    + intros s. rewrite <- Hd. apply D1.
    + rewrite <- Ht. apply C1.
    + intros P. destruct (Hp (SP P)). split; auto. congruence.
Qed.

(** ** the Hadamards in front *)
Definition popq (q : nat) (L : list igate) : list igate := match lq q L with h :: _ => if ishad h then rem h L else L | [] => L end.
Fixpoint popall (qs : list nat) (L : list igate) : list igate := match qs with [] => L | q :: qs => popall qs (popq q L) end.
Lemma had_on : forall q L h Y, lq q L = h :: Y -> ishad h = true -> snd h = GHAD q /\ In h L.
Proof.
  intros q L h Y E H. assert (I : In h (lq q L)) by (rewrite E; left; auto). apply lq_in in I. destruct I as [I O]. unfold ishad in H. destruct (snd h) eqn:Eh; try discriminate. rewrite on_had in O. apply Nat.eqb_eq in O. subst. auto.
Qed.
Lemma pop_had_eq : forall l, pop_had l = match l with h :: l' => if ishad h then ([h], l') else ([], l) | [] => ([], []) end.
Proof. intros [|h l]; auto. unfold pop_had, ishad. destruct (snd h); auto. Qed.
Lemma popq_ok : forall n L q, wf n L -> wf n (popq q L) /\ (forall q', q' <> q -> lq q' (popq q L) = lq q' L) /\ lq q (popq q L) = snd (pop_had (lq q L)) /\
  (forall s, tden L s = tden (fst (pop_had (lq q L)) ++ popq q L) s) /\ Permutation L (fst (pop_had (lq q L)) ++ popq q L).
Proof.
  intros n L q W. unfold popq. rewrite pop_had_eq. destruct (lq q L) as [|h Y] eqn:E; [cbn [fst snd app]; auto 10|]. destruct (ishad h) eqn:H; [|cbn [fst snd app]; auto 10].
  destruct (had_on q L h Y E H) as [Eh Ih]. assert (ND := wf_nodup n L W). assert (NDq := wf_lq n L q W). rewrite E in NDq. inversion NDq; subst.
  cbn [fst snd app]. split; [apply wf_rem; auto|]. split; [|split; [|split]].
  - intros q' N. apply lq_rem_off. rewrite Eh, on_had. apply Nat.eqb_neq. auto.
  - rewrite lq_rem, E. unfold rem. cbn [filter]. rewrite ieq_refl. cbn [negb]. apply rem_out; auto.
  - intros s. apply front_den; auto; [apply (wf_wgs n); auto|]. intros a q' Ia Oa Oh. exfalso. rewrite Eh, on_had in Oh. apply Nat.eqb_eq in Oh. subst q'.
    assert (K : In a (lq q (before h L))) by (apply lq_in; auto). rewrite <- before_lq in K by (rewrite Eh, on_had, Nat.eqb_refl; auto). rewrite E in K. cbn [before] in K. rewrite ieq_refl in K. destruct K.
  - destruct (before_split h L Ih) as [B EB]. set (A := before h L) in *. assert (R : rem h L = A ++ B) by (rewrite EB; apply rem_split; rewrite EB in ND; apply nodup_split in ND; tauto).
    rewrite R. rewrite EB. apply Permutation_sym, Permutation_middle.
Qed.
Definition pops (qs : list nat) (L : list igate) : list igate := concat (map (fun q => fst (pop_had (lq q L))) qs).
Lemma popall_ok : forall n qs L, wf n L -> NoDup qs -> wf n (popall qs L) /\ (forall q, lq q (popall qs L) = if nmem q qs then snd (pop_had (lq q L)) else lq q L) /\
  (forall s, tden L s = tden (pops qs L ++ popall qs L) s) /\ Permutation L (pops qs L ++ popall qs L).
Proof.
  intros n qs. induction qs as [|q qs IH]; intros L W ND; [cbn [popall pops map concat app nmem existsb]; auto|]. inversion ND; subst.
  destruct (popq_ok n L q W) as [A [B [C [D E]]]]. destruct (IH (popq q L) A H2) as [A' [B' [D' E']]]. cbn [popall].
  assert (EP : pops (q :: qs) L = fst (pop_had (lq q L)) ++ pops qs (popq q L)).
  { unfold pops. cbn [map concat]. f_equal. f_equal. apply map_ext_in. intros q' I. rewrite B; auto. intros ->. auto. }
  split; auto. split; [|split].
  - intros q'. rewrite B'. change (nmem q' (q :: qs)) with (Nat.eqb q' q || nmem q' qs). destruct (Nat.eqb_spec q' q) as [->|N]; cbn [orb].
    + rewrite (proj2 (nmem_false q qs)) by auto. auto.
    + rewrite B by auto. auto.
  - intros s. rewrite EP, <- app_assoc. rewrite D. apply tden_app2. auto.
  - rewrite EP, <- app_assoc. eapply Permutation_trans; [apply E|]. apply Permutation_app_head. auto.
Qed.
Lemma pops_in : forall qs L h, In h (pops qs L) -> exists q, In q qs /\ In h L /\ snd h = GHAD q.
Proof.
  intros qs L h H. unfold pops in H. apply in_concat in H. destruct H as [l [Hl Hh]]. apply in_map_iff in Hl. destruct Hl as [q [<- Hq]]. rewrite pop_had_eq in Hh. destruct (lq q L) as [|x Y] eqn:E; [destruct Hh|]. destruct (ishad x) eqn:X; [|destruct Hh].
  destruct Hh as [<-|[]]. destruct (had_on q L x Y E X). exists q. auto.
Qed.
Lemma pops_nodup : forall qs L, NoDup qs -> NoDup (map snd (pops qs L)).
Proof.
  intros qs L. induction qs as [|q qs IH]; intros ND; [constructor|]. inversion ND; subst. unfold pops. cbn [map concat]. rewrite map_app. fold (pops qs L). rewrite pop_had_eq. destruct (lq q L) as [|x Y] eqn:E; [cbn; auto|]. destruct (ishad x) eqn:X; [|cbn; auto].
  cbn [fst map app]. constructor; auto. intros K. apply in_map_iff in K. destruct K as [y [Ey K]]. apply pops_in in K. destruct K as [q' [Hq' [_ K]]]. destruct (had_on q L x Y E X) as [Ex _]. rewrite K, Ex in Ey. inversion Ey. subst. auto.
Qed.
Definition hads_ok (n : nat) (hs : list gate) : Prop := NoDup hs /\ forall h, In h hs -> exists q, q < n /\ h = GHAD q.

Theorem greedy_ok : forall n L G, wf n L -> tab n L G ->
  exists G' block hads L', greedy_consume_gates G = Ok (G', block, hads) /\ wf n L' /\ tab n L' G' /\ blk n block /\ hads_ok n (map snd hads) /\
    (L <> [] -> length L' < length L) /\ (forall s, tden L s = tden (block ++ hads ++ L') s) /\ tcnt (map snd L) = tcnt (map snd (block ++ hads ++ L')) /\
    (Phad L -> length hads = cnth L).
Proof.
  intros n L G W T. unfold greedy_consume_gates.
  destruct (greedy_loop_ok (S (entries G)) n L G [] W T ltac:(intros g []) ltac:(pose proof (tab_entries n L G W T); lia)) as [G1 [block [L1 [E [W1 [T1 [B1 [LE [HD [D1 [C1 P1]]]]]]]]]]]. rewrite E. cbn [bind].
  destruct (popall_ok n (seq 0 n) L1 W1 (seq_NoDup n 0)) as [A [B [D P]]].
  assert (EG : G1 = map (fun q => lq q L1) (seq 0 n)).
  { assert (K := tab_combine n L1 G1 T1). apply (f_equal (map snd)) in K. rewrite map_map in K. cbn [snd] in K. rewrite <- K. clear. generalize 0. induction G1 as [|l G IH]; intros k; auto. cbn. f_equal. apply IH. }
  assert (EH : concat (map (fun l => fst (pop_had l)) G1) = pops (seq 0 n) L1) by (rewrite EG, map_map; auto).
  eexists _, _, _, (popall (seq 0 n) L1). split; [reflexivity|]. rewrite EH. split; auto. split; [|split; auto; split; [|split; [|split; [|split]]]].
  - split; [rewrite map_length; apply T1|]. intros q Hq. rewrite nth_error_map, (proj2 T1 q Hq). cbn [option_map]. rewrite B. rewrite (proj2 (nmem_in q (seq 0 n))); auto. apply in_seq. lia.
  - split; [apply pops_nodup, seq_NoDup|]. intros h Hh. apply in_map_iff in Hh. destruct Hh as [x [<- Hx]]. apply pops_in in Hx. destruct Hx as [q [Hq [_ Ex]]]. exists q. apply in_seq in Hq. split; auto. lia.
  - intros NE. apply Permutation_length in P. rewrite app_length in P. destruct L1 as [|g Lr].
    + cbn in P. destruct L; [congruence|]. cbn. lia.
    + assert (1 <= length (pops (seq 0 n) (g :: Lr))); [|cbn [length] in *; lia].
      destruct (ishad g) eqn:X.
      * assert (Bg := proj2 W1 g (or_introl eq_refl)). unfold ishad in X. destruct (snd g) eqn:Eg; try discriminate. cbn in Bg. assert (In g (pops (seq 0 n) (g :: Lr))).
        { unfold pops. apply in_concat. eexists. split; [apply in_map_iff; exists target; split; [reflexivity|apply in_seq; lia]|]. rewrite pop_had_eq, lq_cons, Eg, on_had, Nat.eqb_refl. unfold ishad. rewrite Eg. left; auto. }
        destruct (pops (seq 0 n) (g :: Lr)); [contradiction|cbn; lia].
      * exfalso. apply (HD g Lr eq_refl). intros t Et. unfold ishad in X. rewrite Et in X. discriminate.
  - intros s. change (tden L s) with (tden ([] ++ L) s). rewrite D1. apply tden_app2. auto.
  - change (tcnt (map snd L)) with (tcnt (map snd ([] ++ L))). rewrite C1, !tcnt_app2. f_equal.
    assert (PT : forall a b : list gate, Permutation a b -> tcnt a = tcnt b). { clear. intros a b P. induction P; auto; cbn [ToddSem.tcnt fold_right] in *; try change (fold_right _ 0 l) with (tcnt l) in *; try change (fold_right _ 0 l') with (tcnt l') in *; [rewrite IHP; auto| |congruence]. destruct x, y; auto; repeat destruct (Pos.ltb _ _); auto. }
    rewrite <- tcnt_app2. apply PT. apply Permutation_map. auto.
  - intros PL. destruct (P1 PL) as [PL1 CL]. rewrite <- CL. unfold cnth.
    assert (PF : Permutation (filter ishad L1) (filter ishad (pops (seq 0 n) L1 ++ popall (seq 0 n) L1))). { clear -P. induction P; cbn [filter]; auto; repeat match goal with |- context [if ishad ?z then _ else _] => destruct (ishad z) end; auto using perm_swap. eapply Permutation_trans; eauto. }
    apply Permutation_length in PF. rewrite PF, filter_app, app_length. rewrite (filter_all _ ishad (pops _ _)) by (intros x Hx; apply pops_in in Hx; destruct Hx as [q [_ [_ Ex]]]; unfold ishad; rewrite Ex; auto).
    rewrite (filter_none _ ishad (popall _ _)); [cbn; lia|]. intros x Hx. destruct (ishad x) eqn:X; auto. exfalso. unfold ishad in X. destruct (snd x) eqn:Ex; try discriminate.
    assert (I1 : In x L1) by (apply (Permutation_in _ (Permutation_sym P)); apply in_or_app; auto). destruct (PL1 x target I1 Ex) as [Y EY].
    assert (Bx := proj2 W1 x I1). rewrite Ex in Bx. cbn in Bx.
    assert (Ix : In x (lq target (popall (seq 0 n) L1))) by (apply lq_in; split; auto; rewrite Ex, on_had, Nat.eqb_refl; auto).
    rewrite B, (proj2 (nmem_in target (seq 0 n))) in Ix by (apply in_seq; lia). rewrite EY, pop_had_eq in Ix. unfold ishad in Ix. rewrite Ex in Ix. cbn [snd] in Ix.
    assert (ND := wf_lq n L1 target W1). rewrite EY in ND. inversion ND. auto.
Qed.

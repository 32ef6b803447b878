(** greedy_consume_gates splits a list of gates into a block of phase gates, CNOTs and
    CZs, Hadamards on different qubits, and a shorter list *)
From Coq Require Import Reals ZArith QArith Qcanon List Bool Arith Lia Permutation.
From Verif Require Import LinModel PermModel CNum Base ScalarModel GateModel OptModel GraphSem SumLemmas CircSpec GateProofs GateDecomp OptTrace OptSem BlockLane BlockModel BlockTab.
From Verif Require ToddSem.
Import ListNotations.
Open Scope nat_scope.
Notation tcnt := ToddSem.tcnt.

(** ** the gates behind Hadamards *)
Definition hvis (hb : list (nat * igate)) (q : nat) (g : igate) (L : list igate) : Prop :=
  exists h X Y1 Y2 b, In (q, h) hb /\ lq q L = X ++ h :: Y1 ++ g :: Y2 /\ snd h = GHAD q /\ (forall a, In a X -> mt q (negb b) (snd a) = true) /\
    (forall a, In a Y1 -> mt q b (snd a) = true) /\ mt q b (snd g) = true.
Definition iscnot (g : gate) : Prop := match g with GCNOT _ _ => True | _ => False end.
Definition av2_ok (hb : list (nat * igate)) (L : list igate) (ks : list nat) (q : nat) (pre : list igate) (av : list nat) : Prop :=
  forall i, In i av -> exists g q', fst g = i /\ In g L /\ two (snd g) /\
    (vis q' g L \/ (hvis hb q' g L /\ iscnot (snd g) /\ (In q' ks \/ (q' = q /\ In g pre)))).
Definition cand_ok (hb : list (nat * igate)) (L : list igate) (g : igate) : Prop :=
  In g L /\ two (snd g) /\ exists q q', q <> q' /\ hvis hb q g L /\ (vis q' g L \/ (hvis hb q' g L /\ iscnot (snd g))).
Definition cands_ok (hb : list (nat * igate)) (L cands : list igate) : Prop := NoDup cands /\ forall g, In g cands -> cand_ok hb L g.
Lemma addcand_ok : forall hb L g cands, cands_ok hb L cands -> cand_ok hb L g -> cands_ok hb L (addcand g cands).
Proof.
  intros hb L g cands [A B] H. unfold addcand. destruct (ig_mem g cands) eqn:E; [split; auto|]. split.
  - apply nodup_snoc_g; auto. intros K. assert (ig_mem g cands = true); [|congruence]. apply existsb_exists. exists g. split; auto. apply ig_eqb_refl.
  - intros x Hx. apply in_app_or in Hx. destruct Hx as [Hx|[<-|[]]]; auto.
Qed.
Lemma hvis_on : forall hb q g L, hvis hb q g L -> onq q (snd g) = true.
Proof. intros hb q g L [h [X [Y1 [Y2 [b [_ [_ [_ [_ [_ M]]]]]]]]]]. eapply mt_on; eauto. Qed.
Lemma vis_no_had : forall n L q X h Y1 g Y2, wf n L -> lq q L = X ++ h :: Y1 ++ g :: Y2 -> snd h = GHAD q -> ~ vis q g L.
Proof.
  intros n L q X h Y1 g Y2 W E Eh [b [M V]]. assert (NDq := wf_lq n L q W). change (h :: Y1 ++ g :: Y2) with ((h :: Y1) ++ g :: Y2) in E. rewrite app_assoc in E. rewrite E in NDq, V.
  rewrite before_app in V by (apply nodup_split in NDq; tauto). specialize (V h). rewrite Eh, mt_had in V. discriminate V. apply in_or_app. right; left; auto.
Qed.
Lemma scan2_ok : forall n L hb ks q (b : bool) X h gs Y1 av cands, wf n L -> In (q, h) hb -> ~ In q ks -> snd h = GHAD q -> lq q L = X ++ h :: Y1 ++ gs ->
  (forall a, In a X -> mt q (negb b) (snd a) = true) -> (forall a, In a Y1 -> mt q b (snd a) = true) ->
  av2_ok hb L ks q Y1 av -> cands_ok hb L cands ->
  exists av' cands', scan2 q (if b then 2 else 1) gs (av, cands) = (av', cands') /\ (forall q2, av2_ok hb L (q :: ks) q2 [] av') /\ cands_ok hb L cands'.
Proof.
  intros n L hb ks q b X h gs. induction gs as [|g gs IH]; intros Y1 av cands W Ih Nk Eh E HX HY HA HC.
  - assert (FIN : forall q2, av2_ok hb L (q :: ks) q2 [] av).
    { intros q2 i Hi. destruct (HA i Hi) as [g [q' [A [B [C D]]]]]. exists g, q'. do 3 (split; auto). destruct D as [D|[D1 [D2 D3]]]; auto. right. split; auto. split; auto. left. destruct D3 as [D3|[-> _]]; [right|left]; auto. }
    eexists _, _. split; [reflexivity|]. auto.
  - assert (FIN : forall q2, av2_ok hb L (q :: ks) q2 [] av).
    { intros q2 i Hi. destruct (HA i Hi) as [g0 [q' [A [B [C D]]]]]. exists g0, q'. do 3 (split; auto). destruct D as [D|[D1 [D2 D3]]]; auto. right. split; auto. split; auto. left. destruct D3 as [D3|[-> _]]; [right|left]; auto. }
    assert (STOP : exists av' cands', (av, cands) = (av', cands') /\ (forall q2, av2_ok hb L (q :: ks) q2 [] av') /\ cands_ok hb L cands') by (eexists _, _; split; [reflexivity|auto]).
    assert (Iq : In g (lq q L)) by (rewrite E; apply in_or_app; right; right; apply in_or_app; right; left; auto). apply lq_in in Iq. destruct Iq as [Ig O].
    assert (E' : lq q L = X ++ h :: (Y1 ++ [g]) ++ gs) by (rewrite <- app_assoc; auto).
    assert (UP : forall av, av2_ok hb L ks q Y1 av -> av2_ok hb L ks q (Y1 ++ [g]) av).
    { intros av0 H i Hi. destruct (H i Hi) as [g0 [q' [A [B [C D]]]]]. exists g0, q'. do 3 (split; auto). destruct D as [D|[D1 [D2 D3]]]; auto. right. split; auto. split; auto. destruct D3 as [D3|[D3 D4]]; auto. right. split; auto. apply in_or_app; auto. }
    assert (NEXT : forall av cands, mt q b (snd g) = true -> av2_ok hb L ks q (Y1 ++ [g]) av -> cands_ok hb L cands ->
       exists av' cands', scan2 q (if b then 2 else 1) gs (av, cands) = (av', cands') /\ (forall q2, av2_ok hb L (q :: ks) q2 [] av') /\ cands_ok hb L cands').
    { intros av0 cands0 M A B. apply (IH (Y1 ++ [g])); auto. intros a Ha. apply in_app_or in Ha. destruct Ha as [Ha|[<-|[]]]; auto. }
    assert (HV : mt q b (snd g) = true -> hvis hb q g L) by (intros M; exists h, X, Y1, gs, b; auto 10).
    assert (NV : ~ vis q g L) by (eapply vis_no_had; eauto).
    assert (Ny : ~ In g Y1). { assert (NDq := wf_lq n L q W). rewrite E in NDq. change (h :: Y1 ++ g :: gs) with ((h :: Y1) ++ g :: gs) in NDq. rewrite app_assoc in NDq. apply nodup_split in NDq. intros K. apply (proj1 NDq). apply in_or_app. right; right; auto. }
    assert (CAND : nmem (fst g) av = true -> two (snd g) -> mt q b (snd g) = true -> cand_ok hb L g).
    { intros M T Mt. apply nmem_in in M. destruct (HA _ M) as [g' [q' [A [B [C D]]]]]. assert (g' = g) by (apply (srt_uniq L); auto; apply W). subst g'.
      split; auto. split; auto. exists q, q'. split; [|split; [auto|tauto]]. intros <-. destruct D as [D|[D1 [D2 [D3|[_ D3]]]]]; auto. }
    assert (Bg := proj2 W g Ig). cbn [scan2]. destruct (snd g) eqn:Eg; cbn in Bg; try contradiction.
    + rewrite on1 in O. apply Nat.eqb_eq in O. subst target. destruct b; cbn [Nat.eqb]; [exact STOP|]. apply NEXT; auto. cbn. apply Nat.eqb_refl.
    + exact STOP.
    + rewrite on2 in O.
      assert (TW : mt q b (GCNOT control target) = true -> exists av' cands', scan2 q (if b then 2 else 1) gs (if nmem (fst g) av then (av, addcand g cands) else (av ++ [fst g], cands)) = (av', cands') /\ (forall q2, av2_ok hb L (q :: ks) q2 [] av') /\ cands_ok hb L cands').
      { intros M. destruct (nmem (fst g) av) eqn:Mv; apply NEXT; auto.
        - apply addcand_ok; auto. apply CAND; auto. exact I.
        - intros i Hi. apply in_app_or in Hi. destruct Hi as [Hi|[<-|[]]]; [apply UP in HA; apply HA; auto|]. exists g, q. split; auto. split; auto. split; [rewrite Eg; exact I|]. right. split; [auto|]. split; [rewrite Eg; exact I|]. right. split; auto. apply in_or_app. right; left; auto. }
      destruct b; cbn [Nat.eqb] in *.
      * destruct (Nat.eqb_spec control q) as [Ec|Nc]; [exact STOP|]. apply TW. cbn. rewrite Nat.eqb_sym, (proj2 (Nat.eqb_neq _ _) Nc) in O. exact O.
      * destruct (Nat.eqb_spec control q) as [Ec|Nc]; [|exact STOP]. apply TW. cbn. apply Nat.eqb_eq. auto.
    + rewrite on2z in O. destruct b; cbn [Nat.eqb] in *; [exact STOP|].
      destruct (nmem (fst g) av) eqn:Mv; apply NEXT; auto. apply addcand_ok; auto. apply CAND; auto. exact I.
Qed.

Definition Phad (L : list igate) : Prop := forall h q, In h L -> snd h = GHAD q -> exists Y, lq q L = h :: Y.
Definition ishad (g : igate) : bool := match snd g with GHAD _ => true | _ => false end.
Definition cnth (L : list igate) : nat := length (filter ishad L).
Lemma tcnt_rem : forall g L, NoDup L -> In g L -> tcnt (map snd L) = tcnt (map snd (g :: rem g L)).
Proof.
  intros g L ND I. destruct (before_split g L I) as [B E]. set (A := before g L) in *. assert (R : rem g L = A ++ B) by (rewrite E; apply rem_split; rewrite E in ND; apply nodup_split in ND; tauto).
  rewrite R, E. change (g :: A ++ B) with ([g] ++ A ++ B). change (A ++ g :: B) with (A ++ [g] ++ B). rewrite !map_app, !ToddSem.tcnt_app. unfold igate in *. lia.
Qed.
Lemma len_rem : forall (g : igate) L, NoDup L -> In g L -> length L = S (length (rem g L)).
Proof.
  intros g L ND I. destruct (before_split g L I) as [B E]. set (A := before g L) in *. assert (R : rem g L = A ++ B) by (rewrite E; apply rem_split; rewrite E in ND; apply nodup_split in ND; tauto).
  rewrite R, E, !app_length. cbn. lia.
Qed.
Lemma hpass_ok : forall n L G tys hb0 hbs ks av cands, wf n L -> tab n L G -> NoDup (map fst hbs) -> (forall q, In q ks -> ~ In q (map fst hbs)) ->
  (forall q h, In (q, h) hbs -> In (q, h) hb0 /\ q < n /\ hb1 L (nth q tys 0) q h) ->
  (forall q, av2_ok hb0 L ks q [] av) -> cands_ok hb0 L cands ->
  (exists G' L', hpass tys hbs G (av, cands) = Ok (inl G') /\ wf n L' /\ tab n L' G' /\ length L' < length L /\ (forall s, tden L s = tden L' s) /\ tcnt (map snd L) = tcnt (map snd L') /\ ~ Phad L) \/
  (exists cands', hpass tys hbs G (av, cands) = Ok (inr cands') /\ cands_ok hb0 L cands').
Proof.
  intros n L G tys hb0 hbs. induction hbs as [|[q h] hbs IH]; intros ks av cands W T ND Dk HB HA HC.
  - right. exists cands. split; auto.
  - cbn [hpass]. destruct (HB q h (or_introl eq_refl)) as [I0 [Hq [X [Y [E [Eh HX]]]]]].
    inversion ND as [|? ? Nq ND']; subst. unfold tget. rewrite (proj2 T q Hq). cbn [bind].
    assert (SQ : srt (X ++ h :: Y)) by (rewrite <- E; apply srt_filter; apply W).
    rewrite E, after_ok by (intros a Ha K; apply srt_split in SQ; destruct SQ as [SQ _]; specialize (SQ a Ha); lia). cbn [bind].
    assert (REC : forall av cands, (forall q2, av2_ok hb0 L (q :: ks) q2 [] av) -> cands_ok hb0 L cands ->
      (exists G' L', hpass tys hbs G (av, cands) = Ok (inl G') /\ wf n L' /\ tab n L' G' /\ length L' < length L /\ (forall s, tden L s = tden L' s) /\ tcnt (map snd L) = tcnt (map snd L') /\ ~ Phad L) \/
      (exists cands', hpass tys hbs G (av, cands) = Ok (inr cands') /\ cands_ok hb0 L cands')).
    { intros av0 cands0 A B. apply (IH (q :: ks)); auto.
      - intros q2 [<-|K]; auto. intros K2. apply (Dk q2 K). right; auto.
      - intros q2 h2 K. apply HB. right; auto. }
    assert (WEAK : forall q2, av2_ok hb0 L (q :: ks) q2 [] av).
    { intros q2 i Hi. destruct (HA q2 i Hi) as [g0 [q' [A [B [C D]]]]]. exists g0, q'. do 3 (split; auto). destruct D as [D|[D1 [D2 D3]]]; auto. right. split; auto. split; auto. destruct D3 as [D3|[_ []]]. left; right; auto. }
    destruct Y as [|g Y]; [apply REC; auto|].
    assert (Iq : In g (lq q L)) by (rewrite E; apply in_or_app; right; right; left; auto). apply lq_in in Iq. destruct Iq as [Ig O]. assert (Bg := proj2 W g Ig).
    assert (Iqh : In h (lq q L)) by (rewrite E; apply in_or_app; right; left; auto). apply lq_in in Iqh. destruct Iqh as [Ihl Oh].
    assert (Nk : ~ In q ks). { intros K. apply (Dk q K). left; auto. }
    assert (GO : forall zty : bool, (match snd g with GHAD _ => False | _ => True end) -> 
        let ty := nth q tys 0 in let lt := if zty then (if Nat.eqb ty 0 then 2 else ty) else (if Nat.eqb ty 0 then 1 else ty) in
        Nat.eqb lt (if zty then 1 else 2) = false -> 
        (exists G' L', hpass tys hbs G (scan2 q (if zty then 1 else 2) (g :: Y) (av, cands)) = Ok (inl G') /\ wf n L' /\ tab n L' G' /\ length L' < length L /\ (forall s, tden L s = tden L' s) /\ tcnt (map snd L) = tcnt (map snd L') /\ ~ Phad L) \/
        (exists cands', hpass tys hbs G (scan2 q (if zty then 1 else 2) (g :: Y) (av, cands)) = Ok (inr cands') /\ cands_ok hb0 L cands')).
    { intros zty _ ty lt Hne.
      assert (HX' : forall a, In a X -> mt q (negb (negb zty)) (snd a) = true).
      { intros a Ha. destruct HX as [[_ ->]|[b [Hb HX]]]; [destruct Ha|]. unfold lt, ty in Hne. rewrite Hb in Hne. rewrite negb_involutive. destruct b, zty; cbn in Hne; try discriminate; apply HX; auto. }
      destruct (scan2_ok n L hb0 ks q (negb zty) X h (g :: Y) [] av cands W I0 Nk Eh E HX' ltac:(intros a []) (HA q) HC) as [av' [cands' [ES [A B]]]].
      replace (if zty then 1 else 2) with (if negb zty then 2 else 1) by (destruct zty; auto). rewrite ES. apply REC; auto. }
    destruct (snd g) eqn:Eg; cbn in Bg; try contradiction.
    + destruct (Nat.eqb _ 1) eqn:Ne; [apply REC; auto|]. apply (GO true); auto.
    + left. rewrite on_had in O. apply Nat.eqb_eq in O. subst target.
      assert (Nhg : h <> g). { intros ->. apply srt_nodup in SQ. apply nodup_split in SQ. apply (proj2 SQ). left; auto. }
      assert (ON : forall x : igate, snd x = GHAD q -> forall q', onq q' (snd x) = true -> q' = q) by (intros x Ex q'; rewrite Ex, on_had; apply Nat.eqb_eq).
      destruct (remove1 n L G q h W T Ihl Oh (ON h Eh)) as [G1 [E1 T1]]. rewrite E1. cbn [bind].
      assert (Ig1 : In g (rem h L)) by (apply rem_in; auto).
      destruct (remove1 n (rem h L) G1 q g (wf_rem _ _ _ W) T1 Ig1 ltac:(rewrite Eg, on_had, Nat.eqb_refl; auto) (ON g Eg)) as [G2 [E2 T2]]. rewrite E2. cbn [bind].
      exists G2, (rem g (rem h L)). split; auto. split; [apply wf_rem, wf_rem; auto|]. split; auto. assert (NDL := wf_nodup n L W). split; [|split; [|split]].
      * rewrite (len_rem h L), (len_rem g (rem h L)) by (auto; apply nodup_rem; auto). lia.
      * intros s. apply (had2_den q h g X Y); auto. apply (wf_wgs n); auto.
      * rewrite (tcnt_rem h L) by auto. cbn [map]. change (snd h :: map snd (rem h L)) with ([snd h] ++ map snd (rem h L)). rewrite ToddSem.tcnt_app, Eh. cbn [ToddSem.tcnt fold_right Nat.add].
        rewrite (tcnt_rem g (rem h L)) by (auto; apply nodup_rem; auto). cbn [map]. change (snd g :: map snd (rem g (rem h L))) with ([snd g] ++ map snd (rem g (rem h L))). rewrite ToddSem.tcnt_app, Eg. auto.
      * intros PH. destruct (PH g q Ig Eg) as [Y' EY]. destruct (PH h q Ihl Eh) as [Y2 EY2]. rewrite EY in EY2. inversion EY2. auto.
    + destruct (Nat.eqb control q); (destruct (Nat.eqb _ _) eqn:Ne; [apply REC; auto|]); [apply (GO true)|apply (GO false)]; auto.
    + destruct (Nat.eqb _ 1) eqn:Ne; [apply REC; auto|]. apply (GO true); auto.
Qed.

(** ** the candidates *)
Lemma vis_lane : forall n L q g b, wf n L -> In g L -> vis q g L -> mt q b (snd g) = true -> lane q b (before g L) b.
Proof.
  intros n L q g b W I [b0 [M V]] Mb. assert (b0 = b). { assert (Wg := wf_wgs n L W g I). destruct b0, b; auto; exfalso; unfold mt in *; eapply mt_both; eauto. } subst b0.
  apply lane_lq. rewrite <- before_lq by (eapply mt_on; eauto). apply lane_typed. auto.
Qed.
Lemma hvis_lane : forall n hb L q g b, wf n L -> In g L -> hvis hb q g L -> mt q b (snd g) = true -> lane q (negb b) (before g L) b.
Proof.
  intros n hb L q g b W I [h [X [Y1 [Y2 [b0 [_ [E [Eh [HX [HY M]]]]]]]]]] Mb.
  assert (b0 = b). { assert (Wg := wf_wgs n L W g I). destruct b0, b; auto; exfalso; unfold mt in *; eapply mt_both; eauto. } subst b0.
  assert (NDq := wf_lq n L q W). apply lane_lq. rewrite <- before_lq by (eapply mt_on; eauto).
  change (h :: Y1 ++ g :: Y2) with ((h :: Y1) ++ g :: Y2) in E. rewrite app_assoc in E. rewrite E in NDq |- *. rewrite before_app by (apply nodup_split in NDq; tauto).
  apply lane_had; auto. rewrite negb_involutive. apply lane_typed. auto.
Qed.
Lemma vis_behind : forall n L tys hb q g, wf n L -> hb_ok L tys hb -> In g L -> vis q g L -> behind hb q (fst g) = false.
Proof.
  intros n L tys hb q g W HB I V. unfold behind. destruct (find _ hb) as [[q' h]|] eqn:F; auto. apply find_some in F. destruct F as [F Eq]. cbn [fst snd] in *. apply Nat.eqb_eq in Eq. subst q'.
  destruct (proj2 HB q h F) as [_ [X [Y [E [Eh _]]]]]. apply Nat.ltb_ge. assert (SQ : srt (X ++ h :: Y)) by (rewrite <- E; apply srt_filter; apply W). apply srt_split in SQ.
  assert (Iq : In g (lq q L)) by (apply lq_in; split; auto; eapply vis_on; eauto). rewrite E in Iq. apply in_app_or in Iq. destruct Iq as [Iq|[->|Iq]].
  - apply Nat.lt_le_incl, SQ. auto.
  - auto.
  - exfalso. apply in_split in Iq. destruct Iq as [Y1 [Y2 ->]]. eapply vis_no_had; eauto.
Qed.
Lemma hvis_behind : forall n L tys hb q g, wf n L -> hb_ok L tys hb -> hvis hb q g L -> behind hb q (fst g) = true.
Proof.
  intros n L tys hb q g W HB [h [X [Y1 [Y2 [b [I [E _]]]]]]]. unfold behind. destruct (find _ hb) as [[q' h']|] eqn:F.
  - apply find_some in F. destruct F as [F Eq]. cbn [fst snd] in *. apply Nat.eqb_eq in Eq. subst q'.
    assert (h' = h). { destruct HB as [ND _]. clear -ND F I. induction hb as [|[q0 h0] hb IH]; [destruct F|]. cbn [map fst] in ND. inversion ND; subst. destruct F as [F|F], I as [I|I].
      - congruence.
      - inversion F; subst. exfalso. apply H1. apply (in_map fst) in I. auto.
      - inversion I; subst. exfalso. apply H1. apply (in_map fst) in F. auto.
      - auto. }
    subst h'. apply Nat.ltb_lt. assert (SQ : srt (X ++ h :: Y1 ++ g :: Y2)) by (rewrite <- E; apply srt_filter; apply W). apply srt_split in SQ. apply SQ. apply in_or_app. right; left; auto.
  - exfalso. assert (K := find_none _ _ F _ I). cbn in K. rewrite Nat.eqb_refl in K. discriminate.
Qed.
Definition rm2 (q1 q2 : nat) (g : igate) (G : table) : res table := let* G := tremove q1 g G in tremove q2 g G.
(** what [cand_step] does with a candidate: nothing, or it moves the gate *)
Definition cspec (n : nat) (hb : list (nat * igate)) (g : igate) (L : list igate) : Prop :=
  (forall a, cand_step hb a g = Ok a) \/
  exists g' q1 q2, q1 <> q2 /\ (forall q, onq q (snd g) = true <-> q = q1 \/ q = q2) /\ bgate n g' /\ two g' /\ movable g g' L /\
    forall G block added, cand_step hb (G, block, added) g = let* G := rm2 q1 q2 g G in Ok (G, block ++ [(fst g, g')], true).
Lemma cand_spec : forall n L tys hb g, wf n L -> hb_ok L tys hb -> cand_ok hb L g -> cspec n hb g L.
Proof.
  intros n L tys hb g W HB [Hin [T [q [q' [N [HV HO]]]]]]. assert (Bg := proj2 W g Hin).
  assert (BH : forall q, hvis hb q g L -> behind hb q (fst g) = true) by (intros; eapply hvis_behind; eauto).
  assert (BV : forall q, vis q g L -> behind hb q (fst g) = false) by (intros; eapply vis_behind; eauto).
  assert (Oq := hvis_on _ _ _ _ HV). assert (Oq' : onq q' (snd g) = true) by (destruct HO as [HO|[HO _]]; [eapply vis_on|eapply hvis_on]; eauto).
  assert (LV : forall q b, vis q g L -> mt q b (snd g) = true -> lane q b (before g L) b) by (intros; eapply vis_lane; eauto).
  assert (LH : forall q b, hvis hb q g L -> mt q b (snd g) = true -> lane q (negb b) (before g L) b) by (intros; eapply hvis_lane; eauto).
  unfold cspec, cand_step, rm2. destruct (snd g) eqn:Eg; cbn in T, Bg; try contradiction.
  - rename control into c, target into t. rewrite on2 in Oq, Oq'. apply orb_true_iff in Oq, Oq'. rewrite !Nat.eqb_eq in Oq, Oq'. assert (MC : mt c false (GCNOT c t) = true) by (cbn; apply Nat.eqb_refl). assert (MT : mt t true (GCNOT c t) = true) by (cbn; apply Nat.eqb_refl).
    assert (ONS : forall q, onq q (GCNOT c t) = true <-> q = t \/ q = c) by (intros; rewrite on2, orb_true_iff, !Nat.eqb_eq; tauto).
    assert (CS : (vis c g L /\ hvis hb t g L) \/ (hvis hb c g L /\ hvis hb t g L) \/ vis t g L).
    { destruct Oq as [->| ->], Oq' as [->| ->]; try congruence; destruct HO as [HO|[HO _]]; auto. }
    destruct CS as [[Vc Ht]|[[Hc Ht]|Vt]].
    + right. exists (GCZ c t), t, c. split; [intros ->; tauto|]. split; auto. split; [exact Bg|]. split; [exact I|]. split.
      * exists c, t, false, true, false, false. split; [tauto|]. rewrite Eg. split; [reflexivity|]. split; [reflexivity|]. split; [apply LV; auto|apply (LH t true); auto].
      * intros G block added. rewrite (BH t Ht), (BV c Vc). cbn [andb]. destruct (tremove t g G); auto.
    + right. exists (GCNOT t c), t, c. split; [intros ->; tauto|]. split; auto. split; [cbn; intuition|]. split; [exact I|]. split.
      * exists c, t, false, true, true, false. split; [tauto|]. rewrite Eg. split; [reflexivity|]. split; [reflexivity|]. split; [apply (LH c false); auto|apply (LH t true); auto].
      * intros G block added. rewrite (BH t Ht), (BH c Hc). cbn [andb]. destruct (tremove t g G); auto.
    + left. intros [[G block] added]. rewrite (BV t Vt). auto.
  - rename control into c, target into t. rewrite on2z in Oq, Oq'. apply orb_true_iff in Oq, Oq'. rewrite !Nat.eqb_eq in Oq, Oq'. assert (MC : mt c false (GCZ c t) = true) by (cbn; rewrite Nat.eqb_refl; auto). assert (MT : mt t false (GCZ c t) = true) by (cbn; rewrite Nat.eqb_refl; apply orb_true_r).
    assert (ONS : forall q, onq q (GCZ c t) = true <-> q = t \/ q = c) by (intros; rewrite on2z, orb_true_iff, !Nat.eqb_eq; tauto).
    assert (CS : (vis c g L /\ hvis hb t g L) \/ (hvis hb c g L /\ vis t g L)).
    { destruct HO as [HO|[_ []]]. destruct Oq as [->| ->], Oq' as [->| ->]; try congruence; auto. }
    destruct CS as [[Vc Ht]|[Hc Vt]].
    + right. exists (GCNOT c t), t, c. split; [intros ->; tauto|]. split; auto. split; [exact Bg|]. split; [exact I|]. split.
      * exists c, t, false, false, false, true. split; [tauto|]. rewrite Eg. split; [reflexivity|]. split; [reflexivity|]. split; [apply LV; auto|apply (LH t false); auto].
      * intros G block added. rewrite (BH t Ht). rewrite (proj2 (Nat.eqb_neq c t)) by tauto. rewrite (BV c Vc). destruct (tremove t g G); auto.
    + right. exists (GCNOT t c), c, t. split; [tauto|]. split; [intros; rewrite ONS; tauto|]. split; [cbn; intuition|]. split; [exact I|]. split.
      * exists c, t, false, false, true, false. split; [tauto|]. rewrite Eg. split; [reflexivity|]. split; [reflexivity|]. split; [apply (LH c false); auto|apply LV; auto].
      * intros G block added. rewrite (BV t Vt), Nat.eqb_refl. rewrite (BV t Vt). destruct (tremove c g G); auto.
Qed.

(** gates that are not Hadamards have been taken out *)
Inductive shr : list igate -> list igate -> Prop :=
| shr_refl : forall L, shr L L
| shr_step : forall g L L', nohad g -> shr (rem g L) L' -> shr L L'.
Lemma shr_trans : forall A B C, shr A B -> shr B C -> shr A C.
Proof. intros A B C H. induction H; auto. intros K. econstructor; eauto. Qed.
Lemma rem_cnth : forall g L, nohad g -> cnth (rem g L) = cnth L.
Proof.
  intros g L N. unfold cnth, rem. rewrite filter_filter. f_equal. apply filter_all. intros x Hx. apply filter_In in Hx. destruct Hx as [_ Hx]. rewrite ieq_neq; auto. intros ->. unfold ishad in Hx. destruct (snd g) eqn:E; try discriminate. apply (N target). auto.
Qed.
Lemma rem_Phad : forall g L, nohad g -> Phad L -> Phad (rem g L).
Proof.
  intros g L N P h q Hh Eh. apply rem_in in Hh. destruct Hh as [Hh Nh]. destruct (P h q Hh Eh) as [Y EY]. rewrite lq_rem, EY. unfold rem. cbn [filter]. rewrite ieq_neq by auto. eexists. reflexivity.
Qed.
Lemma shr_Phad : forall L L', shr L L' -> (Phad L -> Phad L') /\ cnth L' = cnth L.
Proof. intros L L' H. induction H as [|g L L' N H IH]; [auto|]. destruct IH as [A B]. split; [intros P; apply A, rem_Phad; auto|]. rewrite B. apply rem_cnth; auto. Qed.

Definition blk (n : nat) (B : list igate) : Prop := forall g, In g B -> bgate n (snd g) /\ nohad g.
Lemma blk_app : forall n A B, blk n A -> blk n B -> blk n (A ++ B).
Proof. intros n A B H K g I. apply in_app_or in I. destruct I; auto. Qed.
Lemma tden_app2 : forall B A A' s, (forall s, tden A s = tden A' s) -> tden (B ++ A) s = tden (B ++ A') s.
Proof. intros. rewrite !tden_app. auto. Qed.
Lemma tcnt_app2 : forall (A B : list igate), tcnt (map snd (A ++ B)) = tcnt (map snd A) + tcnt (map snd B).
Proof. intros. rewrite map_app. apply ToddSem.tcnt_app. Qed.
Lemma two_tcnt : forall g, two g -> tcnt [g] = 0. Proof. intros g H. destruct g; try contradiction; auto. Qed.
Lemma consume_all : forall n tba L G block, wf n L -> tab n L G -> blk n block -> NoDup tba -> (forall g, In g tba -> In g L /\ nohad g /\ front g L) ->
  exists G' L', foldM consume tba G = Ok G' /\ wf n L' /\ tab n L' G' /\ blk n (block ++ tba) /\ length L = length L' + length tba /\ shr L L' /\
    (forall s, tden (block ++ L) s = tden ((block ++ tba) ++ L') s) /\ tcnt (map snd (block ++ L)) = tcnt (map snd ((block ++ tba) ++ L')).
Proof.
  intros n tba. induction tba as [|g tba IH]; intros L G block W T HB ND H.
  - exists G, L. rewrite app_nil_r. split; auto. do 3 (split; auto). split; [cbn; lia|]. split; [constructor|]. auto.
  - destruct (H g (or_introl eq_refl)) as [I [N F]]. inversion ND as [|? ? Ng ND']; subst. cbn [foldM]. destruct (consume_ok n L G g W T I N) as [G1 [E1 T1]]. rewrite E1. cbn [bind].
    assert (NDL := wf_nodup n L W).
    destruct (IH (rem g L) G1 (block ++ [g])) as [G' [L' [A [B [C [D [E [SH [F1 F2]]]]]]]]]; auto.
    + apply wf_rem; auto.
    + apply blk_app; auto. intros x [<-|[]]. split; auto. apply W; auto.
    + intros x Hx. destruct (H x (or_intror Hx)) as [H1 [H2 H3]]. assert (x <> g) by (intros ->; auto). split; [apply rem_in; auto|]. split; auto. apply front_rem; auto.
    + exists G', L'. replace (block ++ g :: tba) with ((block ++ [g]) ++ tba) by (rewrite <- app_assoc; auto). split; auto. do 3 (split; auto). split; [rewrite (len_rem g L NDL I), E; cbn; lia|]. split; [econstructor; eauto|]. split.
      * intros s. rewrite <- F1. rewrite <- app_assoc. apply tden_app2. intros r. apply front_den; auto. apply (wf_wgs n); auto.
      * rewrite <- F2. rewrite <- app_assoc, !(tcnt_app2 block). rewrite (tcnt_rem g L) by auto. auto.
Qed.
Lemma cand_true : forall hb c G1 b1 G2 b2 a2, foldM (cand_step hb) c (G1, b1, true) = Ok (G2, b2, a2) -> a2 = true.
Proof.
  intros hb c. induction c as [|x c IHc]; intros G1 b1 G2 b2 a2 E; cbn [foldM] in E; [inversion E; auto|]. apply bind_ok in E. destruct E as [x0 [E0 E]]. destruct x0 as [[G3 b3] a3]. assert (a3 = true); [|subst a3; apply IHc in E; auto]. clear IHc E.
  unfold cand_step in E0. destruct (snd x); try (inversion E0; reflexivity).
  - destruct (_ && _); [inv_bind E0; inv_bind E0; inversion E0; auto|]. destruct (behind _ _ _); [inv_bind E0; inv_bind E0; inversion E0; auto|inversion E0; auto].
  - match type of E0 with (if ?b then _ else _) = _ => destruct b end; [discriminate|]. inv_bind E0; inv_bind E0; inversion E0; auto.
Qed.
Lemma cands_all : forall n hb cands L G block added, wf n L -> tab n L G -> blk n block -> NoDup cands -> (forall g, In g cands -> In g L /\ two (snd g) /\ cspec n hb g L) ->
  exists G' L' block' (added' : bool), foldM (cand_step hb) cands (G, block, added) = Ok (G', block', added') /\ wf n L' /\ tab n L' G' /\ blk n block' /\ shr L L' /\
    length L' <= length L /\ (added' = true -> added = true \/ length L' < length L) /\ (added' = false -> G' = G /\ L' = L /\ block' = block) /\
    (forall s, tden (block ++ L) s = tden (block' ++ L') s) /\ tcnt (map snd (block ++ L)) = tcnt (map snd (block' ++ L')).
Proof.
  intros n hb cands. induction cands as [|g cands IH]; intros L G block added W T HB ND H.
  - exists G, L, block, added. split; auto. do 3 (split; auto). split; [constructor|]. auto 10.
  - destruct (H g (or_introl eq_refl)) as [I [T2 CS]]. inversion ND as [|? ? Ng ND']; subst. cbn [foldM]. destruct CS as [CS|[g' [q1 [q2 [Nq [ON [Bg' [T' [MV CS]]]]]]]]].
    + rewrite CS. cbn [bind]. apply IH; auto. intros x Hx. apply H. right; auto.
    + rewrite CS. unfold rm2. destruct (remove2 n L G q1 q2 g W T I Nq ON) as [G1 [E1 T1]]. rewrite E1. cbn [bind]. assert (NDL := wf_nodup n L W).
      assert (Ngh : nohad g) by (intros t Et; rewrite Et in T2; contradiction).
      destruct (IH (rem g L) G1 (block ++ [(fst g, g')]) true) as [G' [L' [block' [added' [A [B [C [D [SH [LE [Ad [Fa [F1 F2]]]]]]]]]]]]]; auto.
      * apply wf_rem; auto.
      * apply blk_app; auto. intros x [<-|[]]. cbn [snd]. split; auto. intros t Et. cbn in Et. rewrite Et in T'. contradiction.
      * intros x Hx. destruct (H x (or_intror Hx)) as [H1 [H2 H3]]. assert (Nx : x <> g) by (intros ->; auto). split; [apply rem_in; auto|]. split; auto. destruct H3 as [H3|[x' [p1 [p2 [A [B [C [D [E F]]]]]]]]]; [left; auto|].
        right. exists x', p1, p2. do 4 (split; auto). split; auto. apply movable_rem; auto.
      * assert (LT : length L' < length L) by (rewrite (len_rem g L NDL I); lia).
        exists G', L', block', added'. split; auto. do 3 (split; auto). split; [econstructor; eauto|]. split; [lia|]. split; [auto|]. split.
        { intros K. destruct (Fa K) as [_ [EL EB]]. exfalso. apply cand_true in A. congruence. }
        split.
        { intros s. rewrite <- F1. rewrite <- app_assoc. apply tden_app2. intros r. apply movable_den; auto. apply (wf_wgs n); auto. }
        { rewrite <- F2. rewrite <- app_assoc, !(tcnt_app2 block). rewrite (tcnt_rem g L) by auto. change (g :: rem g L) with ([g] ++ rem g L). rewrite !tcnt_app2. cbn [map snd]. rewrite !two_tcnt; auto. }
Qed.

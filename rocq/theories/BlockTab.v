(** The tables of greedy_consume_gates, and its first pass *)
From Coq Require Import Reals ZArith QArith Qcanon List Bool Arith Lia.
From Verif Require Import LinModel PermModel CNum Base ScalarModel GateModel OptModel GraphSem SumLemmas CircSpec GateProofs GateDecomp OptTrace OptSem BlockLane BlockModel.
Import ListNotations.
Open Scope nat_scope.

(** the gates of [phase_block_optimize] *)
Definition bgate (n : nat) (g : gate) : Prop :=
  match g with
  | GZ _ t p => t < n /\ exists z : Z, p = frac z 4
  | GHAD t => t < n
  | GCZ c t | GCNOT c t => c < n /\ t < n /\ c <> t
  | _ => False
  end.
Lemma bgate_wg : forall n g, bgate n g -> wg g.
Proof. intros n g H. destruct g; cbn in *; tauto. Qed.
Lemma bgate_lt : forall n g q, bgate n g -> onq q g = true -> q < n.
Proof.
  intros n g q H O. destruct g; cbn in H; try contradiction; unfold onq in O; cbn in O; rewrite ?orb_false_r in O.
  - apply Nat.eqb_eq in O. lia.
  - apply Nat.eqb_eq in O. lia.
  - apply orb_true_iff in O. rewrite !Nat.eqb_eq in O. lia.
  - apply orb_true_iff in O. rewrite !Nat.eqb_eq in O. lia.
Qed.

(** ** lists sorted by index *)
Fixpoint srt (L : list igate) : Prop := match L with [] => True | x :: L => (forall y, In y L -> fst x < fst y) /\ srt L end.
Lemma srt_filter : forall f L, srt L -> srt (filter f L).
Proof.
  intros f L. induction L as [|x L IH]; intros H; auto. destruct H as [A B]. cbn [filter]. destruct (f x); auto. split; auto. intros y Hy. apply filter_In in Hy. apply A. tauto.
Qed.
Lemma srt_nodup : forall L, srt L -> NoDup L.
Proof. induction L as [|x L IH]; intros H; [constructor|]. destruct H as [A B]. constructor; auto. intros K. specialize (A x K). lia. Qed.
Lemma srt_split : forall X h Y, srt (X ++ h :: Y) -> (forall a, In a X -> fst a < fst h) /\ forall a, In a Y -> fst h < fst a.
Proof.
  induction X as [|x X IH]; intros h Y H.
  - destruct H as [A _]. split; auto. intros a [].
  - destruct H as [A B]. destruct (IH h Y B) as [C D]. split; auto. intros a [->|Ha]; auto. apply A. apply in_or_app. right; left; auto.
Qed.
Lemma srt_uniq : forall L a b, srt L -> In a L -> In b L -> fst a = fst b -> a = b.
Proof.
  induction L as [|x L IH]; intros a b H Ha Hb E; [destruct Ha|]. destruct H as [A B]. destruct Ha as [->|Ha], Hb as [->|Hb]; auto.
  - specialize (A b Hb). lia.
  - specialize (A a Ha). lia.
Qed.
Definition wf (n : nat) (L : list igate) : Prop := srt L /\ forall g, In g L -> bgate n (snd g).
Lemma wf_rem : forall n L g, wf n L -> wf n (rem g L).
Proof. intros n L g [A B]. split; [apply srt_filter; auto|]. intros x Hx. apply rem_in in Hx. apply B. tauto. Qed.
Lemma wf_wgs : forall n L, wf n L -> wgs L. Proof. intros n L [_ B] g Hg. apply (bgate_wg n). auto. Qed.
Lemma wf_nodup : forall n L, wf n L -> NoDup L. Proof. intros n L [A _]. apply srt_nodup; auto. Qed.
Lemma wf_lq : forall n L q, wf n L -> NoDup (lq q L). Proof. intros. apply NoDup_filter. eapply wf_nodup; eauto. Qed.

(** ** tables *)
Definition tab (n : nat) (L : list igate) (G : table) : Prop := length G = n /\ forall q, q < n -> nth_error G q = Some (lq q L).
Lemma tset_len : forall G q l, length (tset q l G) = length G.
Proof. induction G as [|m G IH]; intros [|q] l; cbn; auto. Qed.
Lemma tset_nth : forall G q l q', nth_error (tset q l G) q' = if Nat.eqb q q' then (if Nat.ltb q (length G) then Some l else None) else nth_error G q'.
Proof.
  induction G as [|m G IH]; intros q l q'.
  - cbn. destruct q, q'; cbn; auto. destruct (Nat.eqb q q'); auto.
  - destruct q, q'; cbn [tset nth_error]; auto. rewrite IH. cbn [length]. change (S q =? S q') with (q =? q'). change (S q <? S (length G)) with (q <? length G). auto.
Qed.
Lemma ig_eqb_refl : forall g, ig_eqb g g = true.
Proof.
  intros [i g]. unfold ig_eqb. cbn [fst snd]. rewrite Nat.eqb_refl. cbn [andb]. destruct g; cbn [gate_eqb]; rewrite ?Nat.eqb_refl; auto; match goal with |- (if ?d then _ else _) = _ => destruct d as [|N]; [auto|exfalso; apply N; auto] end.
Qed.
Lemma ig_eqb_fst : forall a b, ig_eqb a b = true -> fst a = fst b.
Proof. intros a b H. apply andb_true_iff in H. apply Nat.eqb_eq. tauto. Qed.
Lemma ig_remove_ok : forall l g, NoDup l -> In g l -> (forall a, In a l -> fst a = fst g -> a = g) -> ig_remove g l = Ok (rem g l).
Proof.
  induction l as [|b l IH]; intros g ND I U; [destruct I|]. cbn [ig_remove]. inversion ND; subst. unfold rem. cbn [filter]. fold (rem g l). destruct (ig_eqb b g) eqn:E.
  - assert (b = g) by (apply U; [left; auto|apply ig_eqb_fst; auto]). subst. rewrite ieq_refl. cbn [negb]. rewrite rem_out; auto.
  - assert (N : b <> g) by (intros ->; rewrite ig_eqb_refl in E; discriminate). rewrite ieq_neq by auto. cbn [negb]. rewrite IH; auto; [destruct I; [congruence|auto]|intros; apply U; auto; right; auto].
Qed.
Lemma after_ok : forall X h Y, (forall a, In a X -> fst a <> fst h) -> after h (X ++ h :: Y) = Ok Y.
Proof.
  induction X as [|x X IH]; intros h Y H; cbn [app after]; [rewrite ig_eqb_refl; auto|]. destruct (ig_eqb x h) eqn:E; [exfalso; apply (H x); [left; auto|apply ig_eqb_fst; auto]|]. apply IH. intros; apply H; right; auto.
Qed.
Lemma lq_rem : forall q g L, lq q (rem g L) = rem g (lq q L). Proof. intros. apply filter_filter. Qed.
Lemma lq_rem_off : forall q g L, onq q (snd g) = false -> lq q (rem g L) = lq q L.
Proof. intros q g L O. rewrite lq_rem. apply rem_out. intros K. apply lq_in in K. destruct K. congruence. Qed.
Lemma tremove_ok : forall n L G q g, wf n L -> nth_error G q = Some (lq q L) -> In g L -> onq q (snd g) = true -> tremove q g G = Ok (tset q (lq q (rem g L)) G).
Proof.
  intros n L G q g W E I O. unfold tremove, tget. rewrite E. cbn [bind]. rewrite ig_remove_ok.
  - cbn [bind]. rewrite lq_rem. auto.
  - eapply wf_lq; eauto.
  - apply lq_in; auto.
  - intros a Ha. apply lq_in in Ha. apply (srt_uniq L); auto; apply W || tauto.
Qed.
Lemma remove1 : forall n L G q g, wf n L -> tab n L G -> In g L -> onq q (snd g) = true -> (forall q', onq q' (snd g) = true -> q' = q) ->
  exists G', tremove q g G = Ok G' /\ tab n (rem g L) G'.
Proof.
  intros n L G q g W [T1 T2] I O U. assert (Hq : q < n) by (apply (bgate_lt n (snd g)); auto; apply W; auto).
  rewrite (tremove_ok n L) by auto. eexists. split; [reflexivity|]. split; [rewrite tset_len; auto|]. intros q' Hq'. rewrite tset_nth. destruct (Nat.eqb_spec q q') as [<-|N].
  - rewrite T1, (proj2 (Nat.ltb_lt _ _)); auto.
  - rewrite T2, lq_rem_off; auto. destruct (onq q' (snd g)) eqn:E; auto. apply U in E. congruence.
Qed.
Lemma remove2 : forall n L G q1 q2 g, wf n L -> tab n L G -> In g L -> q1 <> q2 -> (forall q, onq q (snd g) = true <-> q = q1 \/ q = q2) ->
  exists G', (let* G := tremove q1 g G in tremove q2 g G) = Ok G' /\ tab n (rem g L) G'.
Proof.
  intros n L G q1 q2 g W [T1 T2] I D U.
  assert (H1 : q1 < n) by (apply (bgate_lt n (snd g)); [apply W; auto|apply U; auto]). assert (H2 : q2 < n) by (apply (bgate_lt n (snd g)); [apply W; auto|apply U; auto]).
  rewrite (tremove_ok n L) by (auto; apply U; auto). cbn [bind]. rewrite (tremove_ok n L); auto; [|rewrite tset_nth, (proj2 (Nat.eqb_neq _ _)) by auto; auto|apply U; auto].
  eexists. split; [reflexivity|]. split; [rewrite !tset_len; auto|]. intros q Hq. rewrite !tset_nth, tset_len. destruct (Nat.eqb_spec q2 q) as [<-|N2].
  - rewrite T1, (proj2 (Nat.ltb_lt _ _)); auto.
  - destruct (Nat.eqb_spec q1 q) as [<-|N1].
    + rewrite T1, (proj2 (Nat.ltb_lt _ _)); auto.
    + rewrite T2, lq_rem_off; auto. destruct (onq q (snd g)) eqn:E; auto. apply U in E. destruct E; congruence.
Qed.
Definition two (g : gate) : Prop := match g with GCZ _ _ | GCNOT _ _ => True | _ => False end.
Definition nohad (g : igate) : Prop := forall t, snd g <> GHAD t.
Lemma consume_ok : forall n L G g, wf n L -> tab n L G -> In g L -> nohad g -> exists G', consume G g = Ok G' /\ tab n (rem g L) G'.
Proof.
  intros n L G g W T I N. assert (B := proj2 W g I). unfold consume. destruct (snd g) eqn:E; cbn in B; try contradiction.
  - apply remove1; auto; rewrite E; [rewrite on1, Nat.eqb_refl; auto|]. intros q'. rewrite on1. apply Nat.eqb_eq.
  - exfalso. apply (N target). auto.
  - apply remove2; auto; [intros ->; tauto|]. intros q. rewrite E, on2, orb_true_iff, !Nat.eqb_eq. tauto.
  - apply remove2; auto; [intros ->; tauto|]. intros q. rewrite E, on2z, orb_true_iff, !Nat.eqb_eq. tauto.
Qed.
Lemma two_qubits : forall g q q' q'', two g -> onq q g = true -> onq q' g = true -> q <> q' -> onq q'' g = true -> q'' = q \/ q'' = q'.
Proof.
  intros g q q' q'' H A B N D. destruct g; try contradiction; rewrite ?on2, ?on2z, orb_true_iff, !Nat.eqb_eq in *; lia.
Qed.
Lemma tab_entries : forall n L G, wf n L -> tab n L G -> length L <= entries G.
Proof.
  intros n L G W [T1 T2]. unfold entries. apply NoDup_incl_length; [eapply wf_nodup; eauto|]. intros g I. destruct (wg_on (snd g)) as [q O]; [apply (wf_wgs n L); auto|].
  apply in_concat. exists (lq q L). split; [|apply lq_in; auto]. apply (nth_error_In G q). apply T2. apply (bgate_lt n (snd g)); auto. apply W; auto.
Qed.

(** ** the first pass *)
Definition vis (q : nat) (g : igate) (L : list igate) : Prop :=
  exists b, mt q b (snd g) = true /\ forall a, In a (before g (lq q L)) -> mt q b (snd a) = true.
Definition done (q : nat) (pre : list igate) (q' : nat) (g : igate) : Prop := q' < q \/ (q' = q /\ In g pre).
Definition tba_ok (L : list igate) (q : nat) (pre tba : list igate) : Prop :=
  NoDup tba /\ forall g, In g tba -> In g L /\ nohad g /\ forall q', onq q' (snd g) = true -> vis q' g L /\ done q pre q' g.
Definition av_ok (L : list igate) (q : nat) (pre : list igate) (av : list nat) : Prop :=
  forall i, In i av -> exists g q', fst g = i /\ In g L /\ two (snd g) /\ vis q' g L /\ done q pre q' g.
Definition hb1 (L : list igate) (ty q : nat) (h : igate) : Prop :=
  exists X Y, lq q L = X ++ h :: Y /\ snd h = GHAD q /\ ((ty = 0 /\ X = []) \/ exists b : bool, ty = (if b then 2 else 1) /\ forall a, In a X -> mt q b (snd a) = true).
Lemma done_mono : forall q pre x q' g, done q pre q' g -> done q (pre ++ [x]) q' g.
Proof. intros q pre x q' g [H|[H K]]; [left; auto|right; split; auto; apply in_or_app; auto]. Qed.
Lemma done_next : forall q pre q' g, done q pre q' g -> done (S q) [] q' g.
Proof. intros q pre q' g [H|[H K]]; left; lia. Qed.
Lemma tba_mono : forall L q pre x tba, tba_ok L q pre tba -> tba_ok L q (pre ++ [x]) tba.
Proof. intros L q pre x tba [A B]. split; auto. intros g Hg. destruct (B g Hg) as [H1 [H2 H3]]. split; auto. split; auto. intros q' O. destruct (H3 q' O). split; auto. apply done_mono; auto. Qed.
Lemma tba_next : forall L q pre tba, tba_ok L q pre tba -> tba_ok L (S q) [] tba.
Proof. intros L q pre tba [A B]. split; auto. intros g Hg. destruct (B g Hg) as [H1 [H2 H3]]. split; auto. split; auto. intros q' O. destruct (H3 q' O). split; auto. eapply done_next; eauto. Qed.
Lemma av_mono : forall L q pre x av, av_ok L q pre av -> av_ok L q (pre ++ [x]) av.
Proof. intros L q pre x av H i Hi. destruct (H i Hi) as [g [q' [A [B [C [D E]]]]]]. exists g, q'. do 4 (split; auto). apply done_mono; auto. Qed.
Lemma av_next : forall L q pre av, av_ok L q pre av -> av_ok L (S q) [] av.
Proof. intros L q pre av H i Hi. destruct (H i Hi) as [g [q' [A [B [C [D E]]]]]]. exists g, q'. do 4 (split; auto). eapply done_next; eauto. Qed.
Lemma nodup_snoc_g : forall (l : list igate) t, NoDup l -> ~ In t l -> NoDup (l ++ [t]).
Proof. intros l t N I. apply NoDup_rev in N. rewrite <- (rev_involutive (l ++ [t])). apply NoDup_rev. rewrite rev_app_distr. cbn. constructor; auto. intros K. apply in_rev in K. auto. Qed.
Lemma vis_on : forall q g L, vis q g L -> onq q (snd g) = true. Proof. intros q g L [b [H _]]. eapply mt_on; eauto. Qed.

Lemma avail2_ok : forall n L q b pre g gs hb tba av, wf n L -> lq q L = pre ++ g :: gs -> (forall a, In a pre -> mt q b (snd a) = true) -> two (snd g) -> mt q b (snd g) = true ->
  tba_ok L q pre tba -> av_ok L q pre av ->
  exists tba' av', avail2 g (hb, tba, av) = (hb, tba', av') /\ tba_ok L q (pre ++ [g]) tba' /\ av_ok L q (pre ++ [g]) av'.
Proof.
  intros n L q b pre g gs hb tba av W E P T M HT HA.
  assert (NDq := wf_lq n L q W). rewrite E in NDq. assert (Np : ~ In g pre) by (apply nodup_split in NDq; tauto).
  assert (Ig : In g L) by (apply (lq_in q); rewrite E; apply in_or_app; right; left; auto).
  assert (V : vis q g L) by (exists b; split; auto; intros a Ha; rewrite E, before_app in Ha by auto; auto).
  unfold avail2. destruct (nmem (fst g) av) eqn:Mv.
  - apply nmem_in in Mv. destruct (HA _ Mv) as [g' [q' [A [B [C [D F]]]]]]. assert (g' = g) by (apply (srt_uniq L); auto; apply W). subst g'.
    assert (Hq : q' < q) by (destruct F as [F|[_ F]]; [auto|contradiction]).
    eexists _, _. split; [reflexivity|]. split; [|apply av_mono; auto]. split.
    + apply nodup_snoc_g; [apply HT|]. intros K. destruct (proj2 HT g K) as [_ [_ H3]]. destruct (H3 q (mt_on _ _ _ M)) as [_ [H|[_ H]]]; [lia|contradiction].
    + intros x Hx. apply in_app_or in Hx. destruct Hx as [Hx|[<-|[]]].
      * destruct (proj2 (tba_mono L q pre g tba HT) x Hx) as [H1 [H2 H3]]. auto.
      * split; auto. split; [intros t Et; rewrite Et in T; contradiction|]. intros q'' O. destruct (two_qubits (snd g) q q' q'' T) as [->| ->]; auto.
        -- eapply mt_on; eauto.
        -- eapply vis_on; eauto.
        -- lia.
        -- split; auto. right. split; auto. apply in_or_app. right; left; auto.
        -- split; auto. left; auto.
  - eexists _, _. split; [reflexivity|]. split; [apply tba_mono; auto|]. intros i Hi. apply in_app_or in Hi. destruct Hi as [Hi|[<-|[]]]; [apply (av_mono L q pre g av HA); auto|].
    exists g, q. do 4 (split; auto). right. split; auto. apply in_or_app. right; left; auto.
Qed.
Lemma scan1_ok : forall n L q (b : bool) gs pre hb tba av, wf n L -> lq q L = pre ++ gs -> (forall a, In a pre -> mt q b (snd a) = true) -> tba_ok L q pre tba -> av_ok L q pre av ->
  exists hb' tba' av', scan1 q (if b then 2 else 1) gs (hb, tba, av) = (hb', tba', av') /\ tba_ok L (S q) [] tba' /\ av_ok L (S q) [] av' /\
    (hb' = hb \/ exists h, hb' = hb ++ [(q, h)] /\ hb1 L (if b then 2 else 1) q h).
Proof.
  intros n L q b gs. induction gs as [|g gs IH]; intros pre hb tba av W E P HT HA.
  - eexists _, _, _. split; [reflexivity|]. split; [eapply tba_next; eauto|]. split; [eapply av_next; eauto|]. auto.
  - assert (STOP : exists hb' tba' av', (hb, tba, av) = (hb', tba', av') /\ tba_ok L (S q) [] tba' /\ av_ok L (S q) [] av' /\
      (hb' = hb \/ exists h, hb' = hb ++ [(q, h)] /\ hb1 L (if b then 2 else 1) q h)).
    { eexists _, _, _. split; [reflexivity|]. split; [eapply tba_next; eauto|]. split; [eapply av_next; eauto|]. auto. }
    assert (Iq : In g (lq q L)) by (rewrite E; apply in_or_app; right; left; auto). apply lq_in in Iq. destruct Iq as [Ig O].
    assert (E' : lq q L = (pre ++ [g]) ++ gs) by (rewrite <- app_assoc; auto).
    assert (NEXT : forall hb tba av, mt q b (snd g) = true -> tba_ok L q (pre ++ [g]) tba -> av_ok L q (pre ++ [g]) av ->
       exists hb' tba' av', scan1 q (if b then 2 else 1) gs (hb, tba, av) = (hb', tba', av') /\ tba_ok L (S q) [] tba' /\ av_ok L (S q) [] av' /\
      (hb' = hb \/ exists h, hb' = hb ++ [(q, h)] /\ hb1 L (if b then 2 else 1) q h)).
    { intros hb0 tba0 av0 M A B. apply (IH (pre ++ [g])); auto. intros a Ha. apply in_app_or in Ha. destruct Ha as [Ha|[<-|[]]]; auto. }
    assert (TWO : two (snd g) -> mt q b (snd g) = true -> exists hb' tba' av', scan1 q (if b then 2 else 1) gs (avail2 g (hb, tba, av)) = (hb', tba', av') /\ tba_ok L (S q) [] tba' /\ av_ok L (S q) [] av' /\
      (hb' = hb \/ exists h, hb' = hb ++ [(q, h)] /\ hb1 L (if b then 2 else 1) q h)).
    { intros T M. destruct (avail2_ok n L q b pre g gs hb tba av W E P T M HT HA) as [tba' [av' [-> [A B]]]]. apply NEXT; auto. }
    assert (Bg := proj2 W g Ig). cbn [scan1]. destruct (snd g) eqn:Eg; cbn in Bg; try contradiction.
    + rewrite on1 in O. apply Nat.eqb_eq in O. subst target. destruct b; cbn [Nat.eqb]; [exact STOP|]. apply NEXT; [cbn; apply Nat.eqb_refl| |apply av_mono; auto].
      assert (NDq := wf_lq n L q W). rewrite E in NDq. assert (Np : ~ In g pre) by (apply nodup_split in NDq; tauto). split.
      * apply nodup_snoc_g; [apply HT|]. intros K. destruct (proj2 HT g K) as [_ [_ H3]]. rewrite Eg in H3. destruct (H3 q ltac:(rewrite on1, Nat.eqb_refl; auto)) as [_ [H|[_ H]]]; [lia|contradiction].
      * intros x Hx. apply in_app_or in Hx. destruct Hx as [Hx|[<-|[]]].
        -- destruct (proj2 (tba_mono L q pre g tba HT) x Hx) as [H1 [H2 H3]]. auto.
        -- split; auto. split; [intros t Et; congruence|]. intros q'. rewrite Eg, on1. intros O. apply Nat.eqb_eq in O. subst q'. split.
           ++ exists false. rewrite Eg. split; [cbn; apply Nat.eqb_refl|]. intros a Ha. rewrite E, before_app in Ha by auto. auto.
           ++ right. split; auto. apply in_or_app. right; left; auto.
    + rewrite on_had in O. apply Nat.eqb_eq in O. subst target. eexists _, _, _. split; [reflexivity|]. split; [eapply tba_next; eauto|]. split; [eapply av_next; eauto|].
      right. exists g. split; auto. exists pre, gs. split; auto. split; auto. right. exists b. auto.
    + rewrite on2 in O. destruct b; cbn [Nat.eqb andb orb].
      * destruct (Nat.eqb_spec control q) as [Ec|Nc]; [exact STOP|]. apply TWO; [exact I|]. cbn. rewrite Nat.eqb_sym, (proj2 (Nat.eqb_neq _ _) Nc) in O. exact O.
      * rewrite orb_false_r. destruct (Nat.eqb_spec target q) as [Ec|Nc]; [exact STOP|]. apply TWO; [exact I|]. cbn. rewrite (Nat.eqb_sym q target), (proj2 (Nat.eqb_neq _ _) Nc), orb_false_r in O. exact O.
    + rewrite on2z in O. destruct b; cbn [Nat.eqb]; [exact STOP|]. apply TWO; [exact I|]. exact O.
Qed.

Definition hb_ok (L : list igate) (tys : list nat) (hb : list (nat * igate)) : Prop :=
  NoDup (map fst hb) /\ forall q h, In (q, h) hb -> q < length tys /\ hb1 L (nth q tys 0) q h.
Lemma hb_ok_same : forall L tys hb x, hb_ok L tys hb -> hb_ok L (tys ++ [x]) hb.
Proof. intros L tys hb x [A B]. split; auto. intros q h H. destruct (B q h H) as [C D]. rewrite app_length, app_nth1 by auto. split; [cbn; lia|auto]. Qed.
Lemma hb_ok_add : forall L tys hb x h, hb_ok L tys hb -> hb1 L x (length tys) h -> hb_ok L (tys ++ [x]) (hb ++ [(length tys, h)]).
Proof.
  intros L tys hb x h HB H. split.
  - rewrite map_app. cbn [map fst]. apply nodup_snoc; [apply HB|]. intros K. apply in_map_iff in K. destruct K as [[q h'] [E K]]. cbn in E. subst. apply (proj2 HB) in K. lia.
  - intros q h' I. apply in_app_or in I. destruct I as [I|[I|[]]].
    + apply (proj2 (hb_ok_same L tys hb x HB)); auto.
    + injection I as <- <-. rewrite app_length, app_nth2 by lia. rewrite Nat.sub_diag. split; [cbn; lia|auto].
Qed.
(** what the first pass has found after the qubits below [k] *)
Definition inv1 (L : list igate) (k : nat) (a : pstate * list nat) : Prop :=
  let '((hb, tba, av), tys) := a in length tys = k /\ hb_ok L tys hb /\ tba_ok L k [] tba /\ av_ok L k [] av.
Lemma step1_ok : forall n L k a, wf n L -> inv1 L k a -> inv1 L (S k) (step1 a (k, lq k L)).
Proof.
  intros n L k [[[hb tba] av] tys] W [Lt [HB [HT HA]]]. unfold step1.
  assert (SAME : inv1 L (S k) ((hb, tba, av), tys ++ [0])).
  { split; [rewrite app_length; cbn; lia|]. split; [apply hb_ok_same; auto|]. split; [eapply tba_next; eauto|eapply av_next; eauto]. }
  destruct (lq k L) as [|g gs] eqn:E; [exact SAME|].
  assert (Iq : In g (lq k L)) by (rewrite E; left; auto). apply lq_in in Iq. destruct Iq as [Ig O]. assert (Bg := proj2 W g Ig).
  assert (SC : forall b : bool, inv1 L (S k) (scan1 k (if b then 2 else 1) (g :: gs) (hb, tba, av), tys ++ [if b then 2 else 1])).
  { intros b. destruct (scan1_ok n L k b (g :: gs) [] hb tba av W E ltac:(intros a []) HT HA) as [hb' [tba' [av' [-> [A [B D]]]]]].
    split; [rewrite app_length; cbn; lia|]. split; [|split; auto]. destruct D as [->|[h [-> D]]]; [apply hb_ok_same; auto|]. rewrite <- Lt in *. apply hb_ok_add; auto. }
  destruct (snd g) eqn:Eg; cbn in Bg; try contradiction; cbn [first_ty].
  - apply (SC false).
  - rewrite on_had in O. apply Nat.eqb_eq in O. subst target. split; [rewrite app_length; cbn; lia|]. split; [|split; [eapply tba_next; eauto|eapply av_next; eauto]].
    rewrite <- Lt in *. apply hb_ok_add; auto. exists [], gs. split; auto.
  - destruct (Nat.eqb control k); [apply (SC false)|apply (SC true)].
  - apply (SC false).
Qed.
Lemma nth_err_ext : forall A (l l' : list A), (forall q, nth_error l q = nth_error l' q) -> l = l'.
Proof. intros A l. induction l as [|x l IH]; intros [|y l'] H; auto; [discriminate (H 0)|discriminate (H 0)|]. f_equal; [injection (H 0); auto|]. apply IH. intros q. apply (H (S q)). Qed.
Lemma tab_combine : forall n L G, tab n L G -> combine (seq 0 (length G)) G = map (fun q => (q, lq q L)) (seq 0 n).
Proof.
  intros n L G [T1 T2]. assert (EG : G = map (fun q => lq q L) (seq 0 n)).
  { apply nth_err_ext. intros q. destruct (le_lt_dec n q) as [H|H].
    - rewrite !(proj2 (nth_error_None _ _)); auto; [rewrite map_length, seq_length; auto|lia].
    - rewrite T2 by auto. symmetry. rewrite nth_error_map. rewrite (nth_error_nth' _ 0) by (rewrite seq_length; auto). rewrite seq_nth; auto. }
  rewrite T1, EG. clear. generalize 0. induction n as [|n IH]; intros k; auto. cbn [seq map combine]. f_equal. apply IH.
Qed.
Lemma fold_seq_inv : forall A (P : nat -> A -> Prop) (f : A -> nat -> A), (forall k a, P k a -> P (S k) (f a k)) -> forall m k a, P k a -> P (k + m) (fold_left f (seq k m) a).
Proof. intros A P f H m. induction m as [|m IH]; intros k a Ha; cbn [seq fold_left]; [rewrite Nat.add_0_r; auto|]. replace (k + S m) with (S k + m) by lia. apply IH. auto. Qed.
Lemma fold_left_map : forall A B D (f : A -> B -> A) (g : D -> B) l a, fold_left f (map g l) a = fold_left (fun a x => f a (g x)) l a.
Proof. intros A B D f g l. induction l; intros; cbn; auto. Qed.
Theorem pass1_ok : forall n L G, wf n L -> tab n L G -> inv1 L n (pass1 G).
Proof.
  intros n L G W T. unfold pass1. rewrite (tab_combine n L G T), fold_left_map. apply (fold_seq_inv _ (inv1 L) _ ltac:(intros; eapply step1_ok; eauto) n 0).
  split; auto. split; [split; [constructor|intros q h []]|]. split; [split; [constructor|intros g []]|intros i []].
Qed.

(** ** the first gate of all is found *)
Definition grows (a b : pstate) : Prop := let '(_, t, v) := a in let '(_, t', v') := b in (t <> [] -> t' <> []) /\ forall i, In i v -> In i v'.
Lemma grows_refl : forall a, grows a a. Proof. intros [[h t] v]. split; auto. Qed.
Lemma grows_trans : forall a b c, grows a b -> grows b c -> grows a c.
Proof. intros [[h t] v] [[h' t'] v'] [[h'' t''] v''] [A B] [C D]. split; auto. Qed.
Lemma grows_avail2 : forall g a, grows a (avail2 g a).
Proof. intros g [[h t] v]. unfold avail2. destruct (nmem (fst g) v); split; auto; [destruct t; discriminate|intros; apply in_or_app; auto]. Qed.
Lemma grows_scan1 : forall q ty gs a, grows a (scan1 q ty gs a).
Proof.
  intros q ty gs. induction gs as [|g gs IH]; intros a; [apply grows_refl|]. cbn [scan1]. destruct (snd g); try apply grows_refl.
  - destruct a as [[h t] v]. destruct (Nat.eqb ty 1); [|apply grows_refl]. eapply grows_trans; [|apply IH]. split; auto. intros _. destruct t; discriminate.
  - destruct a as [[h t] v]. split; auto.
  - destruct (_ || _); [apply grows_refl|]. eapply grows_trans; [apply grows_avail2|apply IH].
  - destruct (Nat.eqb ty 1); [|apply grows_refl]. eapply grows_trans; [apply grows_avail2|apply IH].
Qed.
Lemma grows_step1 : forall a x, grows (fst a) (fst (step1 a x)).
Proof.
  intros [st tys] [q gs]. unfold step1. destruct gs as [|g gs]; [apply grows_refl|]. destruct (snd g); try apply grows_scan1. destruct st as [[h t] v]. cbn. split; auto.
Qed.
Definition seen (g : igate) (k : nat) (a : pstate * list nat) : Prop :=
  let '((_, tba, av), _) := a in
  (forall q, onq q (snd g) = true -> q < k -> tba <> [] \/ In (fst g) av) /\ ((forall q, onq q (snd g) = true -> q < k) -> tba <> []).
Lemma scan1_first : forall n q g gs hb tba av, bgate n (snd g) -> nohad g -> onq q (snd g) = true ->
  let '(_, tba', av') := scan1 q (first_ty q (snd g)) (g :: gs) (hb, tba, av) in
  (tba' <> [] \/ In (fst g) av') /\ ((forall q', onq q' (snd g) = true -> q' = q) \/ In (fst g) av -> tba' <> []).
Proof.
  intros n q g gs hb tba av B N O.
  assert (TW : forall ty, two (snd g) -> (exists q', onq q' (snd g) = true /\ q' <> q) -> let '(_, tba', av') := scan1 q ty gs (avail2 g (hb, tba, av)) in
     (tba' <> [] \/ In (fst g) av') /\ ((forall q', onq q' (snd g) = true -> q' = q) \/ In (fst g) av -> tba' <> [])).
  { intros ty T [q' [O' Nq]]. assert (K := grows_scan1 q ty gs (avail2 g (hb, tba, av))). destruct (scan1 q ty gs (avail2 g (hb, tba, av))) as [[h' t'] v']. unfold avail2 in K. destruct (nmem (fst g) av) eqn:M; destruct K as [K1 K2].
    - assert (t' <> []) by (apply K1; destruct tba; discriminate). cbv beta iota. split; auto.
    - cbv beta iota. split; [right; apply K2; apply in_or_app; right; left; auto|]. intros [H|H]; [exfalso; auto|]. apply nmem_in in H. congruence. }
  cbn [scan1]. destruct (snd g) eqn:E; cbn in B; try contradiction; cbn [first_ty].
  - cbn [Nat.eqb]. match goal with |- context [scan1 ?a ?b ?c ?d] => assert (K := grows_scan1 a b c d); destruct (scan1 a b c d) as [[h' t'] v'] end. destruct K as [K1 K2]. assert (t' <> []) by (apply K1; destruct tba; discriminate). cbv beta iota. split; auto.
  - exfalso. apply (N target). auto.
  - rewrite on2 in O. destruct B as [_ [_ B]]. destruct (Nat.eqb_spec control q) as [->|Nc].
    + rewrite (proj2 (Nat.eqb_neq target q)) by auto. cbn [Nat.eqb andb orb]. apply TW; [exact I|]. exists target. rewrite on2, Nat.eqb_refl, orb_true_r. auto.
    + cbn [Nat.eqb andb orb]. apply TW; [exact I|]. exists control. rewrite on2, Nat.eqb_refl. auto.
  - rewrite on2z in O. destruct B as [_ [_ B]]. cbn [Nat.eqb]. apply TW; [exact I|]. destruct (Nat.eqb_spec q control) as [->|Nc]; [exists target|exists control]; rewrite on2z, Nat.eqb_refl, ?orb_true_r; auto.
Qed.
Lemma step1_seen : forall n L g k a, wf n (g :: L) -> nohad g -> seen g k a -> seen g (S k) (step1 a (k, lq k (g :: L))).
Proof.
  intros n L g k a W N S0. assert (GR := grows_step1 a (k, lq k (g :: L))). destruct a as [[[hb tba] av] tys].
  destruct (onq k (snd g)) eqn:O.
  - assert (F : step1 (((hb, tba, av) : pstate), tys) (k, lq k (g :: L)) = (scan1 k (first_ty k (snd g)) (g :: lq k L) (hb, tba, av), tys ++ [first_ty k (snd g)])).
    { unfold step1. rewrite lq_cons, O. destruct (snd g) eqn:E; auto. exfalso. apply (N target). auto. }
    rewrite F in GR |- *. assert (K := scan1_first n k g (lq k L) hb tba av (proj2 W g (or_introl eq_refl)) N O).
    cbn [fst] in GR. unfold pstate, igate in *. revert K GR. match goal with |- context [scan1 ?a ?b ?c ?d] => generalize (scan1 a b c d) end. intros [[hb' tba'] av'] K GR. destruct K as [K1 K2], GR as [G1 G2], S0 as [S1 S2]. split.
    + intros q Oq Hq. auto.
    + intros H. destruct (existsb (fun q => negb (Nat.eqb q k)) (gate_qubits (snd g))) eqn:X.
      * apply existsb_exists in X. destruct X as [q [Iq X]]. apply negb_true_iff, Nat.eqb_neq in X. assert (Oq : onq q (snd g) = true) by (apply nmem_in; auto).
        specialize (H q Oq). destruct (S1 q Oq ltac:(lia)) as [Y|Y]; auto.
      * apply K2. left. intros q Oq. destruct (Nat.eq_dec q k) as [|Nq]; auto. exfalso. assert (Y : existsb (fun q => negb (Nat.eqb q k)) (gate_qubits (snd g)) = true); [|congruence].
        apply existsb_exists. exists q. split; [apply nmem_in; auto|]. apply negb_true_iff, Nat.eqb_neq. auto.
  - destruct (step1 (((hb, tba, av) : pstate), tys) (k, lq k (g :: L))) as [[[hb' tba'] av'] tys']. cbn [fst] in GR. destruct GR as [G1 G2], S0 as [S1 S2]. split.
    + intros q Oq Hq. assert (q <> k) by (intros ->; congruence). destruct (S1 q Oq ltac:(lia)); auto.
    + intros H. apply G1, S2. intros q Oq. specialize (H q Oq). assert (q <> k) by (intros ->; congruence). lia.
Qed.
Theorem pass1_first : forall n L g G, wf n (g :: L) -> tab n (g :: L) G -> nohad g -> snd (fst (fst (pass1 G))) <> [].
Proof.
  intros n L g G W T N. unfold pass1. rewrite (tab_combine n _ G T), fold_left_map.
  assert (K := fold_seq_inv _ (seen g) (fun a x => step1 a (x, lq x (g :: L))) ltac:(intros; eapply step1_seen; eauto) n 0 ([], [], [], [])).
  destruct (fold_left _ (seq 0 n) _) as [[[hb tba] av] tys]. cbn [fst snd]. apply K.
  - split; [intros q _ H; lia|]. intros H. destruct (wg_on (snd g)) as [q O]; [apply (wf_wgs n (g :: L)); auto; left; auto|]. specialize (H q O). lia.
  - intros q O. apply (bgate_lt n (snd g)); auto. apply W. left; auto.
Qed.

(** [topological_sort_gates] lists the gates in an order that fits their order on each qubit *)
From Coq Require Import ZArith QArith Qcanon List Bool Arith Lia FunctionalExtensionality.
From Verif Require Import LinModel PermModel CNum Base ScalarModel ScalarProofs GateModel OptModel GraphSem SumLemmas CircSpec GateProofs DepthProofs OptTrace OptSem OptInv OptStep.
Import ListNotations.
Open Scope nat_scope.

(** on qubit q only commuting gates come before h *)
Definition firstq (G : nat -> list igate) (h : igate) (q : nat) : Prop :=
  exists l1 l2, G q = l1 ++ h :: l2 /\ forall x, In x l1 -> same q (snd h) (snd x) = true.
Lemma firstq_rem : forall G h q g, g <> h -> firstq G h q -> firstq (fun p => rem g (G p)) h q.
Proof.
  intros G h q g N [l1 [l2 [E H]]]. exists (rem g l1), (rem g l2). rewrite E. change (h :: l2) with ([h] ++ l2). rewrite !rem_app, (rem_out g [h]) by (intros [K|[]]; congruence).
  split; auto. intros x I. apply rem_in in I. apply H; tauto.
Qed.
Record sinv (W0 : list igate) (G : nat -> list igate) (out Wr : list igate) (av : list nat) (seen : nat -> igate -> Prop) : Prop := {
  si_rep : rep G Wr; si_teq : teq W0 (out ++ Wr); si_nd : NoDup (map fst Wr); si_wg : wgs Wr; si_av : NoDup av;
  si_seen : forall i, In i av -> exists h q, In h Wr /\ fst h = i /\ onq q (snd h) = true /\ firstq G h q /\ seen q h }.
Lemma sinv_seen : forall W0 G out Wr av (s1 s2 : nat -> igate -> Prop), (forall q h, s1 q h -> s2 q h) -> sinv W0 G out Wr av s1 -> sinv W0 G out Wr av s2.
Proof. intros W0 G out Wr av s1 s2 H []. split; auto. intros i I. destruct (si_seen0 i I) as [h [q [A [B [C [D E]]]]]]. exists h, q. do 4 (split; auto). Qed.
Lemma sinv_ext : forall W0 G G' out Wr av seen, (forall q, G q = G' q) -> sinv W0 G out Wr av seen -> sinv W0 G' out Wr av seen.
Proof.
  intros W0 G G' out Wr av seen E []. split; auto; [apply (rep_ext G); auto|]. intros i I. destruct (si_seen0 i I) as [h [q [A [B [C [[l1 [l2 [D1 D2]]] F]]]]]]. exists h, q. do 4 (split; auto). exists l1, l2. rewrite <- E. auto.
Qed.
Lemma nodup_map_rem : forall g (W : list igate), NoDup (map fst W) -> NoDup (map fst (rem g W)).
Proof.
  intros g W N. induction W as [|x W IH]; [constructor|]. cbn [map] in N. inversion N as [|? ? N1 N2]; subst. unfold rem in *. simpl. destruct (negb (ieq x g)); auto.
  cbn [map]. constructor; auto. intros I. apply N1. apply in_map_iff in I. destruct I as [y [E I]]. apply filter_In in I. apply in_map_iff. exists y. tauto.
Qed.
(** a gate goes to the output *)
Lemma sinv_out : forall W0 G out Wr av seen g av', sinv W0 G out Wr av seen -> In g Wr -> firstable G g -> (forall i, In i av' -> In i av /\ i <> fst g) -> NoDup av' ->
  sinv W0 (fun q => rem g (G q)) (out ++ [g]) (rem g Wr) av' (fun q h => seen q h /\ h <> g).
Proof.
  intros W0 G out Wr av seen g av' [] I F HA NA. assert (T : teq Wr (g :: rem g Wr)) by (apply (move_first G); auto; apply nodup_fst; auto). split; auto.
  - apply rep_rem; auto.
  - apply (teq_trans _ (out ++ Wr)); auto. rewrite <- app_assoc. apply teq_app; [apply teq_refl|exact T].
  - apply nodup_map_rem; auto.
  - intros h J. apply rem_in in J. apply si_wg0; tauto.
  - intros i J. destruct (HA i J) as [J1 J2]. destruct (si_seen0 i J1) as [h [q [A [B [C [D E]]]]]]. assert (N : h <> g) by (intros ->; congruence).
    exists h, q. split; [apply rem_in; auto|]. split; auto. split; auto. split; [apply firstq_rem; auto|]. auto.
Qed.
(** a gate is noted as reached from one of its qubits *)
Lemma sinv_note : forall W0 G out Wr av (seen : nat -> igate -> Prop) g q, sinv W0 G out Wr av seen -> In g Wr -> onq q (snd g) = true -> firstq G g q -> seen q g ->
  sinv W0 G out Wr (av_add (fst g) av) seen.
Proof.
  intros W0 G out Wr av seen g q [] I O F S. assert (E : forall i, In i (av_add (fst g) av) -> i = fst g \/ In i av) by (intros i; unfold av_add; destruct (nmem (fst g) av); simpl; intuition).
  split; auto.
  - unfold av_add. destruct (nmem (fst g) av) eqn:M; auto. constructor; auto. apply nmem_false; auto.
  - intros i J. apply E in J. destruct J as [->|J]; auto. exists g, q. do 4 (split; auto).
Qed.

(** what is known while qubit q is scanned: [K] has been passed, [gs] is left *)
Definition cur (st : sortst) (q : nat) (L : list igate) : nat -> list igate := fset (s_gates st) q L.
Definition seen_at (q : nat) (K : list igate) (p : nat) (h : igate) : Prop := p < q \/ p = q /\ In h K.
Definition scan (W0 : list igate) (q : nat) (K gs : list igate) (st : sortst) (Wr : list igate) : Prop :=
  sinv W0 (cur st q (K ++ gs)) (s_out st) Wr (s_av st) (seen_at q K).
Definition grow (a b : sortst) : Prop := exists o, s_out b = s_out a ++ o.
Lemma two_on : forall g c t, two_qubit g = Some (c, t) -> forall q, onq q (snd g) = Nat.eqb q c || Nat.eqb q t.
Proof. intros g c t E q. unfold two_qubit in E. destruct (snd g); inversion E; subst; [apply on2|apply on2z]. Qed.
Lemma two_neq : forall g c t, two_qubit g = Some (c, t) -> wg (snd g) -> c <> t.
Proof. intros g c t E W. unfold two_qubit in E. destruct (snd g); inversion E; subst; exact W. Qed.
Lemma one_on : forall g q p, two_qubit g = None -> wg (snd g) -> onq q (snd g) = true -> onq p (snd g) = true -> p = q.
Proof.
  intros g q p E W A B. unfold two_qubit in E. unfold onq in A, B. destruct (snd g); try (exfalso; exact W); try discriminate; simpl in A, B; rewrite orb_false_r in A, B; apply Nat.eqb_eq in A, B; congruence.
Qed.
Lemma other_ne : forall q c t, c <> t -> (q = c \/ q = t) -> other_end q c t <> q /\ (other_end q c t = c \/ other_end q c t = t) /\ forall p, p = c \/ p = t -> p = q \/ p = other_end q c t.
Proof. intros q c t N H. unfold other_end. destruct (Nat.eqb_spec q c); [subst|]; repeat split; auto; intros; try (destruct H; subst; auto; congruence). all: destruct H; subst; try congruence. all: destruct H0; subst; auto. Qed.
(** the three things that can happen to the next gate g, when it is first on q *)
Section step.
  Variables (W0 : list igate) (q : nat) (K : list igate) (g : igate) (r : list igate) (st : sortst) (Wr : list igate).
  Hypothesis S : scan W0 q K (g :: r) st Wr.
  Hypothesis F : forall x, In x K -> same q (snd g) (snd x) = true.
  Let G := cur st q (K ++ g :: r).
  Lemma sc_g : In g Wr /\ onq q (snd g) = true /\ wg (snd g).
  Proof.
    assert (I : In g (G q)) by (unfold G, cur; rewrite fset_same; apply in_or_app; right; left; auto). assert (R := si_rep _ _ _ _ _ _ S). fold G in R.
    split; [apply (rep_in_w G Wr q); auto|]. split; [apply (rep_on _ _ R q); auto|]. apply (si_wg _ _ _ _ _ _ S). apply (rep_in_w G Wr q); auto.
  Qed.
  Lemma sc_first : firstq G g q.
  Proof. exists K, r. split; [unfold G, cur; apply fset_same|auto]. Qed.
  Lemma sc_nd : ~ In g K /\ ~ In g r.
  Proof.
    assert (R := si_rep _ _ _ _ _ _ S). assert (N := rep_nodup _ _ q R (nodup_fst _ (si_nd _ _ _ _ _ _ S))). unfold cur in N. rewrite fset_same in N. apply nodup_split in N. auto.
  Qed.
  Lemma sc_note : two_qubit g <> None -> scan W0 q (K ++ [g]) r (mkS (s_gates st) (s_out st) (av_add (fst g) (s_av st))) Wr.
  Proof.
    intros _. destruct sc_g as [I [O W]]. unfold scan. rewrite <- app_assoc. apply (sinv_note W0 G (s_out st) Wr (s_av st) (seen_at q (K ++ [g])) g q); auto.
    - apply (sinv_seen W0 G _ _ _ (seen_at q K)); [|exact S]. intros p h [L|[E J]]; [left; auto|right; split; auto; apply in_or_app; auto].
    - apply sc_first.
    - right. split; auto. apply in_or_app. right; left; auto.
  Qed.
  Lemma sc_one : two_qubit g = None -> scan W0 q K r (mkS (s_gates st) (s_out st ++ [g]) (s_av st)) (rem g Wr).
  Proof.
    intros E. destruct sc_g as [I [O W]]. destruct sc_nd as [N1 N2]. unfold scan. cbn [s_out s_av s_gates].
    assert (H : sinv W0 (fun p => rem g (G p)) (s_out st ++ [g]) (rem g Wr) (s_av st) (fun p h => seen_at q K p h /\ h <> g)).
    { apply (sinv_out W0 G (s_out st) Wr (s_av st) (seen_at q K) g); auto.
      - intros p Op. rewrite (one_on g q p E W O Op). exact sc_first.
      - intros i Hi. split; auto. intros ->. destruct (si_seen _ _ _ _ _ _ S (fst g) Hi) as [h [p [A [B [C [D [L|[-> J]]]]]]]].
        + assert (h = g) by (apply (fst_inj Wr); auto; apply (si_nd _ _ _ _ _ _ S)). subst h. rewrite (one_on g q p E W O C) in L. lia.
        + assert (h = g) by (apply (fst_inj Wr); auto; apply (si_nd _ _ _ _ _ _ S)). subst h. contradiction.
      - apply (si_av _ _ _ _ _ _ S). }
    apply (sinv_seen _ _ _ _ _ _ (seen_at q K)) in H; [|tauto]. apply (sinv_ext _ (fun p => rem g (G p))); auto. intros p. unfold G, cur, fset. destruct (Nat.eqb_spec p q) as [->|Np]; cbn [s_gates].
    - apply rem_split; auto.
    - apply rem_out. intros J. assert (R := si_rep _ _ _ _ _ _ S). assert (Op : onq p (snd g) = true) by (apply (rep_on _ _ R p); unfold cur; rewrite fset_other; auto). apply Np. apply (one_on g q p); auto.
  Qed.
  Lemma sc_pair : forall ct, two_qubit g = Some ct -> nmem (fst g) (s_av st) = true ->
    exists st', take_pair q g ct st = Ok st' /\ s_out st' = s_out st ++ [g] /\ scan W0 q K r st' (rem g Wr).
  Proof.
    intros [c t] E M. apply nmem_in in M. destruct sc_g as [I [O W]]. destruct sc_nd as [N1 N2]. assert (ON := two_on g c t E). assert (Nct := two_neq g c t E W).
    assert (Oq := O). rewrite ON in Oq. apply orb_true_iff in Oq. rewrite !Nat.eqb_eq in Oq. destruct (other_ne q c t Nct Oq) as [X1 [X2 X3]]. set (q2 := other_end q c t) in *.
    assert (ND := si_nd _ _ _ _ _ _ S). assert (R := si_rep _ _ _ _ _ _ S). fold G in R.
    assert (O2 : onq q2 (snd g) = true) by (rewrite ON; apply orb_true_iff; rewrite !Nat.eqb_eq; auto).
    assert (E2 : G q2 = s_gates st q2) by (unfold G, cur; apply fset_other; auto).
    assert (I2 : In g (G q2)) by (apply (rep_in G Wr); auto).
    assert (F2 : firstq G g q2).
    { destruct (si_seen _ _ _ _ _ _ S (fst g) M) as [h [p [A [B [C [D L]]]]]]. assert (h = g) by (apply (fst_inj Wr); auto). subst h.
      rewrite ON in C. apply orb_true_iff in C. rewrite !Nat.eqb_eq in C. destruct (X3 p C) as [-> | ->]; auto. destruct L as [L|[_ J]]; [lia|contradiction]. }
    unfold take_pair. cbn [fst snd]. fold q2. rewrite <- E2. rewrite (ig_remove_in Wr); auto; [|intros x; apply (rep_in_w G Wr q2 x R)|apply (rep_nodup _ _ q2 R (nodup_fst _ ND))]. cbn [bind].
    eexists. split; [reflexivity|]. split; auto. unfold scan. cbn [s_out s_av s_gates].
    assert (H : sinv W0 (fun p => rem g (G p)) (s_out st ++ [g]) (rem g Wr) (nremove (fst g) (s_av st)) (fun p h => seen_at q K p h /\ h <> g)).
    { apply (sinv_out W0 G (s_out st) Wr (s_av st) (seen_at q K) g); auto.
      - intros p Op. rewrite ON in Op. apply orb_true_iff in Op. rewrite !Nat.eqb_eq in Op. destruct (X3 p Op) as [-> | ->]; [exact sc_first|exact F2].
      - intros i Hi. apply nremove_in in Hi; auto. apply (si_av _ _ _ _ _ _ S).
      - apply nremove_nodup. apply (si_av _ _ _ _ _ _ S). }
    apply (sinv_seen _ _ _ _ _ _ (seen_at q K)) in H; [|tauto]. apply (sinv_ext _ (fun p => rem g (G p))); auto. intros p. unfold G, cur. cbn [s_gates].
    destruct (Nat.eq_dec p q) as [->|Np]; [rewrite !fset_same; apply rem_split; auto|]. rewrite !(fset_other _ _ q) by auto.
    destruct (Nat.eq_dec p q2) as [->|Np2]; [rewrite fset_same; f_equal; apply fset_other; auto|]. rewrite fset_other by auto. apply rem_out. intros J.
    assert (Op : onq p (snd g) = true) by (apply (rep_on _ _ R p); unfold G, cur; rewrite fset_other; auto). rewrite ON in Op. apply orb_true_iff in Op. rewrite !Nat.eqb_eq in Op. destruct (X3 p Op); auto.
  Qed.
End step.

(** the outcome of a scan *)
Definition scanned (W0 : list igate) (q : nat) (K gs : list igate) (st : sortst) (r : res (list igate * sortst)) : Prop :=
  exists gs' st' Wr', r = Ok (gs', st') /\ sinv W0 (cur st' q (K ++ gs')) (s_out st') Wr' (s_av st') (fun p h => p <= q) /\
    (length (s_out st) < length (s_out st') \/
     s_out st' = s_out st /\ s_gates st' = s_gates st /\ gs' = gs /\ (forall i, In i (s_av st) -> In i (s_av st')) /\
     forall l1 x l2, gs = l1 ++ x :: l2 -> (forall y, In y l1 -> same q (snd x) (snd y) = true) -> (forall y, In y K -> same q (snd x) (snd y) = true) -> two_qubit x <> None /\ In (fst x) (s_av st') /\ ~ In (fst x) (s_av st)).
Definition kin (z : bool) (q : nat) (g : igate) : bool := if z then zt q (snd g) else xt q (snd g).
Lemma kin_same : forall z q a b, kin z q a = true -> kin z q b = true -> same q (snd a) (snd b) = true.
Proof. intros [] q a b A B; unfold same; unfold kin in *; rewrite A, B; auto. apply orb_true_r. Qed.
Lemma scan_weak : forall W0 q K gs st Wr, scan W0 q K gs st Wr -> sinv W0 (cur st q (K ++ gs)) (s_out st) Wr (s_av st) (fun p _ => p <= q).
Proof. intros W0 q K gs st Wr S. apply (sinv_seen W0 _ _ _ _ (seen_at q K)); auto. intros p h [L|[E _]]; lia. Qed.
Lemma kin_next : forall z q g y, kin z q y = true -> same q (snd g) (snd y) = true -> wg (snd y) -> kin z q g = true.
Proof.
  intros z q g y Ky Sy Wy. unfold same in Sy. apply orb_true_iff in Sy. rewrite !andb_true_iff in Sy. destruct z; unfold kin in *; destruct Sy as [[A B]|[A B]]; auto; exfalso; eapply zx_false; eauto.
Qed.
Lemma z_end_kin : forall q g, two_qubit g <> None -> onq q (snd g) = true -> kin (z_end q g) q g = true.
Proof.
  intros q [i g] T O. unfold two_qubit in T. unfold z_end, kin, onq in *. cbn [snd] in *. destruct g; try congruence; simpl in *; rewrite orb_false_r in O.
  - destruct (Nat.eqb_spec control q) as [->|N]; [rewrite Nat.eqb_refl; auto|]. destruct (Nat.eqb_spec q control); [congruence|]. auto.
  - auto.
Qed.
Lemma behind_kin : forall z q g, wg (snd g) -> onq q (snd g) = true -> kin z q g = true ->
  (two_qubit g = None /\ (z && is_zphase g || negb z && is_xphase g) = true) \/
  (exists ct, two_qubit g = Some ct /\ (z && is_zphase g || negb z && is_xphase g) = false /\ (z && z_end q g || negb z && x_end q g) = true).
Proof.
  intros z q [i g] W O H. unfold kin, is_zphase, is_xphase, two_qubit, z_end, x_end in *. cbn [snd] in *. destruct g; try (exfalso; exact W); destruct z; simpl in *; try discriminate; auto.
  - right. eexists. split; [reflexivity|]. split; auto. rewrite Nat.eqb_sym, H. auto.
  - right. eexists. split; [reflexivity|]. split; auto. rewrite Nat.eqb_sym, H. auto.
  - right. eexists. split; [reflexivity|]. auto.
Qed.
Lemma behind_not : forall z q g, wg (snd g) -> onq q (snd g) = true -> kin z q g = false ->
  (z && is_zphase g || negb z && is_xphase g) = false /\ (forall ct, two_qubit g = Some ct -> (z && z_end q g || negb z && x_end q g) = false).
Proof.
  intros z q [i g] W O H. unfold kin, is_zphase, is_xphase, two_qubit, z_end, x_end, onq in *. cbn [snd] in *. destruct g; try (exfalso; exact W); destruct z; simpl in *; rewrite ?orb_false_r in *; auto; split; auto; intros; try congruence.
  - rewrite Nat.eqb_sym, H. auto.
  - rewrite Nat.eqb_sym, H. auto.
Qed.
Lemma behind_ok : forall W0 q z gs K st Wr, scan W0 q K gs st Wr -> (forall x, In x K -> kin z q x = true) -> K <> [] -> scanned W0 q K gs st (behind q z gs st).
Proof.
  intros W0 q z. induction gs as [|g r IH]; intros K st Wr S HK NK.
  - cbn [behind]. exists [], st, Wr. split; auto. split; [apply scan_weak; auto|]. right. do 4 (split; auto). intros l1 x l2 E. destruct l1; discriminate.
  - cbn [behind]. destruct (sc_g W0 q K g r st Wr S) as [I [O W]].
    assert (WK : forall x, In x K -> wg (snd x)).
    { intros x J. apply (si_wg _ _ _ _ _ _ S). apply (rep_in_w _ _ q x (si_rep _ _ _ _ _ _ S)). unfold cur. rewrite fset_same. apply in_or_app; auto. }
    destruct (kin z q g) eqn:Kg.
    + assert (F : forall x, In x K -> same q (snd g) (snd x) = true) by (intros x J; apply (kin_same z); auto). destruct (behind_kin z q g W O Kg) as [[T B]|[ct [T [B1 B2]]]].
      * rewrite B. assert (S1 := sc_one W0 q K g r st Wr S F T). destruct (IH K _ _ S1 HK NK) as [gs' [st' [Wr' [A [B' C]]]]]. exists gs', st', Wr'. split; auto. split; auto. left. cbn [s_out] in C. destruct C as [C|[C _]]; [|rewrite C]; rewrite app_length in *; simpl in *; lia.
      * rewrite B1, T, B2. destruct (nmem (fst g) (s_av st)) eqn:M.
        -- destruct (sc_pair W0 q K g r st Wr S F ct T M) as [st1 [A1 [A2 S1]]]. rewrite A1. cbn [bind]. destruct (IH K _ _ S1 HK NK) as [gs' [st' [Wr' [A [B' C]]]]]. exists gs', st', Wr'. split; auto. split; auto. left. rewrite A2 in C. destruct C as [C|[C _]]; [|rewrite C]; rewrite app_length in *; simpl in *; lia.
        -- assert (T' : two_qubit g <> None) by (rewrite T; discriminate). assert (S1 := sc_note W0 q K g r st Wr S F T').
           destruct (IH (K ++ [g]) _ _ S1) as [gs' [st' [Wr' [A [B' C]]]]]; [intros x J; apply in_app_or in J; destruct J as [J|[<-|[]]]; auto|destruct K; discriminate|]. rewrite A. cbn [bind fst snd].
           exists (g :: gs'), st', Wr'. split; auto. rewrite <- app_assoc in B'. split; auto. cbn [s_out s_gates s_av] in C. destruct C as [C|[C1 [C2 [C3 [C4 C5]]]]]; [left; auto|right]. subst gs'.
           assert (AV : forall i, In i (s_av st) -> In i (av_add (fst g) (s_av st))) by (intros i J; unfold av_add; destruct (nmem (fst g) (s_av st)); simpl; auto).
           assert (AG : In (fst g) (av_add (fst g) (s_av st))) by (unfold av_add; rewrite M; left; auto).
           do 4 (split; auto). intros l1 x l2 E H1 H2. destruct l1 as [|y l1]; cbn [app] in E; inversion E; subst.
           ++ split; auto. split; auto. apply nmem_false; auto.
           ++ destruct (C5 l1 x l2 eq_refl) as [D0 [D1 D2]]; [intros y' J; apply H1; right; auto|intros y' J; apply in_app_or in J; destruct J as [J|[<-|[]]]; auto; apply H1; left; auto|]. split; auto.
    + destruct (behind_not z q g W O Kg) as [B1 B2]. rewrite B1.
      assert (STOP : scanned W0 q K (g :: r) st (Ok (g :: r, st))).
      { exists (g :: r), st, Wr. split; auto. split; [apply scan_weak; auto|]. right. do 4 (split; auto). intros l1 x l2 E H1 H2. exfalso.
        destruct K as [|k K]; [congruence|]. assert (Kk : kin z q k = true) by (apply HK; left; auto). assert (Kx : kin z q x = true) by (apply (kin_next z q x k); auto; [apply H2; left; auto|apply WK; left; auto]).
        destruct l1 as [|y l1]; cbn [app] in E; inversion E; subst; [congruence|]. assert (Kg' : kin z q y = true); [|congruence]. assert (SY : same q (snd x) (snd y) = true) by (apply H1; left; auto).
        assert (Ix : In x (K ++ y :: l1 ++ x :: l2)) by (apply in_or_app; right; right; apply in_or_app; right; left; auto).
        apply (kin_next z q y x); auto; [rewrite same_sym; auto|]. apply (si_wg _ _ _ _ _ _ S). apply (rep_in_w _ _ q x (si_rep _ _ _ _ _ _ S)). unfold cur. rewrite fset_same. right. auto. }
      destruct (two_qubit g) as [ct|] eqn:T; auto. rewrite (B2 ct eq_refl). auto.
Qed.
Lemma front_ok : forall W0 q gs st Wr, scan W0 q [] gs st Wr -> scanned W0 q [] gs st (front q gs st).
Proof.
  intros W0 q. induction gs as [|g r IH]; intros st Wr S.
  - cbn [front]. exists [], st, Wr. split; auto. split; [apply scan_weak; auto|]. right. do 4 (split; auto). intros l1 x l2 E. destruct l1; discriminate.
  - cbn [front]. destruct (sc_g W0 q [] g r st Wr S) as [I [O W]]. assert (F : forall x : igate, In x [] -> same q (snd g) (snd x) = true) by (intros x []).
    destruct (two_qubit g) as [ct|] eqn:T.
    + destruct (nmem (fst g) (s_av st)) eqn:M.
      * destruct (sc_pair W0 q [] g r st Wr S F ct T M) as [st1 [A1 [A2 S1]]]. rewrite A1. cbn [bind]. destruct (IH _ _ S1) as [gs' [st' [Wr' [A [B' C]]]]]. exists gs', st', Wr'. split; auto. split; auto. left. rewrite A2 in C. destruct C as [C|[C _]]; [|rewrite C]; rewrite app_length in *; simpl in *; lia.
      * assert (T' : two_qubit g <> None) by (rewrite T; discriminate). assert (S1 := sc_note W0 q [] g r st Wr S F T').
        destruct (behind_ok W0 q (z_end q g) r [g] _ _ S1) as [gs' [st' [Wr' [A [B' C]]]]]; [intros x [<-|[]]; apply z_end_kin; auto|discriminate|]. rewrite A. cbn [bind fst snd].
        exists (g :: gs'), st', Wr'. split; auto. split; auto. cbn [s_out s_gates s_av] in C. destruct C as [C|[C1 [C2 [C3 [C4 C5]]]]]; [left; auto|right]. subst gs'.
        assert (AV : forall i, In i (s_av st) -> In i (av_add (fst g) (s_av st))) by (intros i J; unfold av_add; destruct (nmem (fst g) (s_av st)); simpl; auto).
        assert (AG : In (fst g) (av_add (fst g) (s_av st))) by (unfold av_add; rewrite M; left; auto).
        do 4 (split; auto). intros l1 x l2 E H1 H2. destruct l1 as [|y l1]; cbn [app] in E; inversion E; subst.
        -- split; auto. split; auto. apply nmem_false; auto.
        -- destruct (C5 l1 x l2 eq_refl) as [D0 [D1 D2]]; [intros y' J; apply H1; right; auto|intros y' [<-|[]]; apply H1; left; auto|]. split; auto.
    + assert (S1 := sc_one W0 q [] g r st Wr S F T). destruct (IH _ _ S1) as [gs' [st' [Wr' [A [B' C]]]]]. exists gs', st', Wr'. split; auto. split; auto. left. cbn [s_out] in C. destruct C as [C|[C _]]; [|rewrite C]; rewrite app_length in *; simpl in *; lia.
Qed.

(** ** one round, and all rounds *)
Definition sfirst (G : nat -> list igate) (q : nat) (x : igate) : Prop := firstq G x q.
Lemma sort_qubit_ok : forall W0 q st Wr, sinv W0 (s_gates st) (s_out st) Wr (s_av st) (fun p _ => p < q) ->
  exists st' Wr', sort_qubit st q = Ok st' /\ sinv W0 (s_gates st') (s_out st') Wr' (s_av st') (fun p _ => p < S q) /\
    (length (s_out st) < length (s_out st') \/
     s_out st' = s_out st /\ (forall p, s_gates st' p = s_gates st p) /\ (forall i, In i (s_av st) -> In i (s_av st')) /\
     forall x, firstq (s_gates st) x q -> two_qubit x <> None /\ In (fst x) (s_av st') /\ ~ In (fst x) (s_av st)).
Proof.
  intros W0 q st Wr S. assert (S0 : scan W0 q [] (s_gates st q) st Wr).
  { unfold scan. cbn [app]. apply (sinv_ext _ (s_gates st)); [intros p; unfold cur, fset; destruct (Nat.eqb_spec p q); subst; auto|]. apply (sinv_seen W0 _ _ _ _ (fun p _ => p < q)); auto. intros p h L. left. auto. }
  destruct (front_ok W0 q _ st Wr S0) as [gs' [st' [Wr' [A [B C]]]]]. unfold sort_qubit. rewrite A. cbn [bind fst snd app] in *. eexists _, Wr'. split; [reflexivity|]. cbn [s_gates s_out s_av]. split.
  - apply (sinv_seen W0 _ _ _ _ (fun p _ => p <= q)); auto. intros; lia.
  - destruct C as [C|[C1 [C2 [C3 [C4 C5]]]]]; [left; auto|right]. split; auto. split; [intros p; unfold fset; destruct (Nat.eqb_spec p q); [subst; auto|rewrite C2; auto]|]. split; auto.
    intros x [l1 [l2 [E H]]]. apply (C5 l1 x l2); auto.
Qed.
Lemma sort_range_ok : forall W0 k q st Wr, sinv W0 (s_gates st) (s_out st) Wr (s_av st) (fun p _ => p < q) ->
  exists st' Wr', foldM sort_qubit (seq q k) st = Ok st' /\ sinv W0 (s_gates st') (s_out st') Wr' (s_av st') (fun p _ => p < q + k) /\
    (length (s_out st) < length (s_out st') \/
     s_out st' = s_out st /\ (forall p, s_gates st' p = s_gates st p) /\ (forall i, In i (s_av st) -> In i (s_av st')) /\
     forall x p, q <= p < q + k -> firstq (s_gates st) x p -> two_qubit x <> None /\ In (fst x) (s_av st') /\ ~ In (fst x) (s_av st)).
Proof.
  intros W0. induction k as [|k IH]; intros q st Wr S.
  - cbn [seq foldM]. exists st, Wr. split; auto. rewrite Nat.add_0_r. split; auto. right. do 3 (split; auto). intros; lia.
  - cbn [seq foldM]. destruct (sort_qubit_ok W0 q st Wr S) as [st1 [W1 [A [B C]]]]. rewrite A. cbn [bind]. destruct (IH (Datatypes.S q) st1 W1 B) as [st2 [W2 [A2 [B2 C']]]]. exists st2, W2. split; auto.
    replace (q + Datatypes.S k) with (Datatypes.S q + k) by lia. split; auto.
    destruct C as [C|[C1 [C2 [C3 C4]]]]; [left; destruct C' as [C'|[C' _]]; [lia|rewrite C'; auto]|]. destruct C' as [C'|[D1 [D2 [D3 D4]]]]; [left; rewrite <- C1; auto|right].
    split; [congruence|]. split; [intros p; rewrite D2; auto|]. split; auto. intros x p L F. destruct (Nat.eq_dec p q) as [->|Np].
    + destruct (C4 x F) as [E0 [E1 E2]]. split; auto.
    + destruct (D4 x p) as [E0 [E1 E2]]; [lia|destruct F as [l1 [l2 [E H]]]; exists l1, l2; rewrite C2; auto|]. split; auto.
Qed.
Lemma head_first : forall G x Wr q, NoDup (x :: Wr) -> rep G (x :: Wr) -> onq q (snd x) = true -> firstq G x q.
Proof.
  intros G x Wr q N R O. assert (I : In x (G q)) by (apply (rep_in G (x :: Wr)); auto; left; auto). destruct (in_split _ _ I) as [l1 [l2 E]]. exists l1, l2. split; auto.
  intros y J. destruct (same q (snd x) (snd y)) eqn:S; auto. exfalso. assert (Oy : onq q (snd y) = true) by (apply (rep_on _ _ R); rewrite E; apply in_or_app; auto).
  assert (P := rep_pr _ _ R q x y O Oy (or_intror S)). assert (NG := rep_nodup _ _ q R N). rewrite E in NG. destruct (nodup_split _ _ _ NG) as [N1 N2].
  rewrite E, proj_app, !proj_cl in P. destruct (proj x y l1) as [|z r] eqn:EP.
  - assert (K : In y (proj x y l1)) by (apply proj_in; auto). rewrite EP in K. destruct K.
  - cbn [app] in P. inversion P; subst z. assert (K : In x (proj x y l1)) by (rewrite EP; left; auto). apply proj_in in K. tauto.
Qed.
Lemma round_ok : forall W0 n G out Wr, rep G Wr -> teq W0 (out ++ Wr) -> NoDup (map fst Wr) -> wgs Wr -> (forall g q, In g Wr -> onq q (snd g) = true -> q < n) -> Wr <> [] ->
  exists st' Wr', sort_round n G out = Ok st' /\ rep (s_gates st') Wr' /\ teq W0 (s_out st' ++ Wr') /\ NoDup (map fst Wr') /\ wgs Wr' /\ length out < length (s_out st').
Proof.
  intros W0 n G out Wr R T ND WW HN NE. unfold sort_round.
  assert (S : sinv W0 (s_gates (mkS G out [])) (s_out (mkS G out [])) Wr (s_av (mkS G out [])) (fun p _ => p < 0)) by (split; cbn [s_gates s_out s_av]; auto; [constructor|intros i []]).
  destruct (sort_range_ok W0 n 0 _ Wr S) as [st' [Wr' [A [B C]]]]. exists st', Wr'. split; auto. destruct B as [B1 B2 B3 B4 B5 B6]. do 4 (split; auto). destruct C as [C|[C1 [C2 [C3 C4]]]]; auto. exfalso. cbn [s_gates s_out s_av] in *.
  destruct Wr as [|x Wr]; [congruence|]. assert (NW := nodup_fst _ ND). assert (Wx : wg (snd x)) by (apply WW; left; auto).
  assert (Fx : forall q, onq q (snd x) = true -> firstq G x q) by (intros q O; apply (head_first G x Wr); auto).
  assert (Lx : forall q, onq q (snd x) = true -> q < n) by (intros q O; apply (HN x); auto; left; auto).
  destruct (two_qubit x) as [[c t]|] eqn:E.
  - assert (ON := two_on x c t E). assert (Nct := two_neq x c t E Wx).
    assert (Oc : onq c (snd x) = true) by (rewrite ON, Nat.eqb_refl; auto). assert (Ot : onq t (snd x) = true) by (rewrite ON, Nat.eqb_refl; apply orb_true_r).
    assert (K : forall a b, a < b -> b < n -> onq a (snd x) = true -> onq b (snd x) = true -> False).
    { intros a b Lab Lb Oa Ob. replace (seq 0 n) with (seq 0 b ++ seq (0 + b) (n - b)) in A by (rewrite <- seq_app; f_equal; lia).
      destruct (sort_range_ok W0 b 0 (mkS G out []) _ S) as [s1 [V1 [D1 [D2 D3]]]]. rewrite foldM_app, D1 in A. cbn [bind] in A. destruct (sort_range_ok W0 (n - b) (0 + b) _ _ D2) as [s2 [V2 [F1 [F2 F3]]]]. rewrite F1 in A. inversion A; subst s2. cbn [s_gates s_out s_av] in *.
      destruct D3 as [D3|[G1 [G2 [G3 G4]]]]; [destruct F3 as [F3|[F3 _]]; rewrite C1 in F3; [lia|rewrite F3 in D3; lia]|]. destruct F3 as [F3|[H1 [H2 [H3 H4]]]]; [rewrite C1, G1 in F3; lia|].
      destruct (G4 x a) as [_ [G5 _]]; [lia|auto|]. destruct (H4 x b) as [_ [_ H5]]; [lia| |auto]. destruct (Fx b Ob) as [l1 [l2 [Q H]]]. exists l1, l2. rewrite G2. auto. }
    destruct (Nat.lt_trichotomy c t) as [L|[L|L]]; [apply (K c t)|auto|apply (K t c)]; auto.
  - destruct (wg_on _ Wx) as [q O]. specialize (Fx q O). specialize (Lx q O).
    destruct (C4 x q) as [I _]; [lia|auto|]. congruence.
Qed.

Lemma any_left_spec : forall n G, any_left n G = false <-> forall q, q < n -> G q = [].
Proof.
  intros n G. unfold any_left. split.
  - intros H q L. destruct (G q) eqn:E; auto. exfalso. assert (K : existsb (fun q => negb (length (G q) =? 0)) (seq 0 n) = true); [|congruence]. apply existsb_exists. exists q. split; [apply in_seq; lia|]. rewrite E. auto.
  - intros H. apply not_true_is_false. intros K. apply existsb_exists in K. destruct K as [q [I K]]. apply in_seq in I. rewrite H in K by lia. discriminate.
Qed.
Lemma sort_loop_ok : forall W0 n fuel G out Wr, rep G Wr -> teq W0 (out ++ Wr) -> NoDup (map fst Wr) -> wgs Wr -> (forall g q, In g W0 -> onq q (snd g) = true -> q < n) -> length out + fuel >= length W0 -> length out + length Wr = length W0 ->
  exists out', sort_loop fuel n G out = Ok out' /\ teq W0 out'.
Proof.
  intros W0 n. assert (TL : forall A B : list igate, teq A B -> Permutation.Permutation A B).
  { intros A B T. apply (Permutation.Permutation_count_occ igate_dec). intros a. assert (Q := T a a (or_introl eq_refl)). rewrite !proj_count in Q. apply (f_equal (@length _)) in Q. rewrite !repeat_length in Q. auto. }
  induction fuel as [|fuel IH]; intros G out Wr R T ND WW HN LF LW.
  - assert (Wr = []) by (destruct Wr; auto; simpl in LW; lia). subst Wr. cbn [sort_loop]. assert (A : any_left n G = false).
    { apply any_left_spec. intros q L. destruct (G q) as [|g l] eqn:E; auto. exfalso. apply (in_nil (a := g)). apply (rep_in_w G [] q); auto. rewrite E. left; auto. }
    rewrite A. exists out. rewrite app_nil_r in T. auto.
  - cbn [sort_loop]. destruct (any_left n G) eqn:A.
    + assert (NE : Wr <> []).
      { intros ->. assert (K : any_left n G = false); [|congruence]. apply any_left_spec. intros q L. destruct (G q) as [|g l] eqn:E; auto. exfalso. apply (in_nil (a := g)). apply (rep_in_w G [] q); auto. rewrite E. left; auto. }
      destruct (round_ok W0 n G out Wr) as [st' [Wr' [B [R' [T' [ND' [WW' L]]]]]]]; auto.
      { intros g q I. apply HN. apply (teq_in (out ++ Wr)); [apply teq_sym; auto|apply in_or_app; auto]. }
      rewrite B. cbn [bind]. apply (IH _ _ Wr'); auto; [lia|]. apply TL in T'. apply Permutation.Permutation_length in T'. rewrite app_length in T'. lia.
    + assert (Wr = []).
      { destruct Wr as [|x Wr]; auto. exfalso. assert (Ix : In x W0) by (apply (teq_in (out ++ x :: Wr)); [apply teq_sym; auto|apply in_or_app; right; left; auto]). destruct (wg_on _ (WW x (or_introl eq_refl))) as [q O].
        assert (E := proj1 (any_left_spec n G) A q (HN x q Ix O)). assert (K : In x (G q)) by (apply (rep_in G (x :: Wr)); auto; left; auto). rewrite E in K. destruct K. }
      subst Wr. exists out. rewrite app_nil_r in T. auto.
Qed.
Lemma total_len_flat : forall n G, total_len n G = length (flat_map G (seq 0 n)).
Proof. intros n G. unfold total_len. induction (seq 0 n) as [|q l IH]; auto. cbn [fold_right flat_map]. rewrite app_length, IH. auto. Qed.
(** the sorted gates are a rearrangement that keeps the order of gates that do not commute *)
Theorem topological_sort_ok : forall n st W, ginv n st W ->
  exists out, topological_sort_gates n (o_gates st) = Ok (map snd out) /\ teq W out /\ wgs out /\ forall s, cden (map snd out) s = tden W s.
Proof.
  intros n st W GI. unfold topological_sort_gates. assert (RP := gi_rep _ _ _ GI).
  destruct (sort_loop_ok W n (total_len n (o_gates st)) (o_gates st) [] W) as [out [A T]]; auto.
  - apply teq_refl.
  - apply (gi_nd _ _ _ GI).
  - apply (gi_wg _ _ _ GI).
  - apply (gi_n _ _ _ GI).
  - cbn [length]. rewrite total_len_flat. apply (NoDup_incl_length (gi_ndW _ _ _ GI)). intros g I. destruct (wg_on _ (gi_wg _ _ _ GI g I)) as [q O]. apply in_flat_map. exists q. split; [|apply (rep_in _ W); auto].
    apply in_seq. assert (K := gi_n _ _ _ GI g q I O). lia.
  - rewrite A. cbn [bind]. exists out. split; auto. split; auto. assert (WO : wgs out) by (intros g I; apply (gi_wg _ _ _ GI); apply (teq_in out); auto; apply teq_sym; auto).
    split; auto. intros s. symmetry. apply teq_den; auto. apply (gi_wg _ _ _ GI).
Qed.

(** Loading the gates, the gates left over, and the loop of phase_block_optimize *)
From Coq Require Import Reals ZArith QArith Qcanon List Bool Arith Lia Permutation FunctionalExtensionality.
From Verif Require Import LinModel PermModel CNum Base ScalarModel GateModel OptModel GraphSem SumLemmas CircSpec GateProofs GateDecomp PermProofs OptTrace OptSem OptParse OptProofs BlockLane ToddModel BlockModel BlockTab BlockGreedy BlockLoop.
From Verif Require ToddSem ToddProofs ToddCases.
Import ListNotations.
Open Scope nat_scope.

(** ** loading *)
Lemma lq_snoc : forall q L g, lq q (L ++ [g]) = if onq q (snd g) then lq q L ++ [g] else lq q L.
Proof. intros. rewrite lq_app. cbn [lq filter]. destruct (onq q (snd g)); auto. apply app_nil_r. Qed.
Lemma tapp_ok : forall G q l g, nth_error G q = Some l -> tapp q g G = Ok (tset q (l ++ [g]) G).
Proof. intros G q l g E. unfold tapp, tget. rewrite E. auto. Qed.
Lemma app1 : forall n L G q g, tab n L G -> q < n -> (forall q', onq q' (snd g) = Nat.eqb q' q) -> exists G', tapp q g G = Ok G' /\ tab n (L ++ [g]) G'.
Proof.
  intros n L G q g [T1 T2] Hq U. rewrite (tapp_ok G q (lq q L)) by auto. eexists. split; [reflexivity|]. split; [rewrite tset_len; auto|].
  intros q' Hq'. rewrite tset_nth, lq_snoc, U, T1, (proj2 (Nat.ltb_lt q n)), Nat.eqb_sym by auto. destruct (Nat.eqb_spec q' q) as [->|]; auto.
Qed.
Lemma app2 : forall n L G q1 q2 g, tab n L G -> q1 < n -> q2 < n -> q1 <> q2 -> (forall q, onq q (snd g) = true <-> q = q1 \/ q = q2) ->
  exists G', (let* G := tapp q1 g G in tapp q2 g G) = Ok G' /\ tab n (L ++ [g]) G'.
Proof.
  intros n L G q1 q2 g [T1 T2] H1 H2 D U. rewrite (tapp_ok G q1 (lq q1 L)) by auto. cbn [bind].
  rewrite (tapp_ok _ q2 (lq q2 L)) by (rewrite tset_nth, (proj2 (Nat.eqb_neq _ _)) by auto; auto). eexists. split; [reflexivity|]. split; [rewrite !tset_len; auto|].
  intros q Hq. rewrite !tset_nth, tset_len, lq_snoc, T1, (proj2 (Nat.ltb_lt q1 n)), (proj2 (Nat.ltb_lt q2 n)) by auto.
  destruct (Nat.eqb_spec q2 q) as [->|N2]; [rewrite (proj2 (U q)); auto|]. destruct (Nat.eqb_spec q1 q) as [->|N1]; [rewrite (proj2 (U q)); auto|].
  rewrite T2 by auto. destruct (onq q (snd g)) eqn:E; auto. apply U in E. destruct E; congruence.
Qed.
Lemma den124 : forall z, Qden (this (frac z 4)) = 1%positive \/ Qden (this (frac z 4)) = 2%positive \/ Qden (this (frac z 4)) = 4%positive.
Proof.
  intros z. unfold frac. cbn [this Q2Qc]. unfold Qred. assert (G := Z.ggcd_correct_divisors z 4). assert (N := Z.ggcd_gcd z 4). destruct (Z.ggcd z 4) as [g [a b]]. cbn [fst snd Qden] in *. destruct G as [_ G].
  assert (P := Z.gcd_nonneg z 4). rewrite <- N in P. destruct b as [|b|b]; cbn [Z.to_pos]; auto.
  assert (Q : (0 < g)%Z) by (destruct (Z.eq_dec g 0) as [->|]; lia). assert (B : (Z.pos b <= 4)%Z) by (clear -G Q; nia). assert (K : (Z.pos b = 1 \/ Z.pos b = 2 \/ Z.pos b = 3 \/ Z.pos b = 4)%Z) by lia. destruct K as [K|[K|[K|K]]]; [inversion K; auto|inversion K; auto|rewrite K in G; lia|inversion K; auto].
Qed.
Lemma load_step_ok : forall n L G g, tab n L G -> bgate n (snd g) -> exists G', load_step G g = Ok G' /\ tab n (L ++ [g]) G'.
Proof.
  intros n L G g T B. unfold load_step. destruct (snd g) eqn:E; cbn in B; try contradiction.
  - destruct B as [B [z ->]]. assert (A : exists G', tapp target g G = Ok G' /\ tab n (L ++ [g]) G') by (apply app1; auto; intros q'; rewrite E, on1; auto).
    destruct (den124 z) as [-> | [-> | ->]]; exact A.
  - apply app1; auto. intros q'. rewrite E, on_had. auto.
  - apply app2; try tauto. intros q. rewrite E, on2, orb_true_iff, !Nat.eqb_eq. tauto.
  - apply app2; try tauto. intros q. rewrite E, on2z, orb_true_iff, !Nat.eqb_eq. tauto.
Qed.
Lemma rload_step_ok : forall n L G g, tab n L G -> bgate n (snd g) -> exists G', rload_step G g = Ok G' /\ tab n (L ++ [g]) G'.
Proof.
  intros n L G g T B. unfold rload_step. destruct (snd g) eqn:E; cbn in B; try contradiction.
  - destruct B as [B _]. apply app1; auto. intros q'. rewrite E, on1. auto.
  - apply app1; auto. intros q'. rewrite E, on_had. auto.
  - apply app2; try tauto; [intros ->; tauto|]. intros q. rewrite E, on2, orb_true_iff, !Nat.eqb_eq. tauto.
  - apply app2; try tauto; [intros ->; tauto|]. intros q. rewrite E, on2z, orb_true_iff, !Nat.eqb_eq. tauto.
Qed.
Lemma loads_ok : forall f n, (forall L G g, tab n L G -> bgate n (snd g) -> exists G', f G g = Ok G' /\ tab n (L ++ [g]) G') ->
  forall W L G, tab n L G -> (forall g, In g W -> bgate n (snd g)) -> exists G', foldM f W G = Ok G' /\ tab n (L ++ W) G'.
Proof.
  intros f n H. induction W as [|g W IH]; intros L G T B; [exists G; rewrite app_nil_r; auto|]. cbn [foldM]. destruct (H L G g T (B g (or_introl eq_refl))) as [G1 [E1 T1]]. rewrite E1. cbn [bind].
  destruct (IH (L ++ [g]) G1 T1 ltac:(intros; apply B; right; auto)) as [G2 [E2 T2]]. exists G2. rewrite <- app_assoc in T2. auto.
Qed.
Lemma tab_nil : forall n, tab n [] (repeat [] n).
Proof. intros n. split; [apply repeat_length|]. intros q Hq. rewrite (nth_error_nth' _ []) by (rewrite repeat_length; auto). rewrite nth_repeat. auto. Qed.
Lemma enum_snd : forall (l : list gate) k, map snd (combine (seq k (length l)) l) = l.
Proof. induction l as [|g l IH]; intros k; auto. cbn. f_equal. apply IH. Qed.
Lemma enum_srt : forall (l : list gate) k, srt (combine (seq k (length l)) l) /\ forall x, In x (combine (seq k (length l)) l) -> k <= fst x.
Proof.
  induction l as [|g l IH]; intros k; [split; [exact I|intros x []]|]. cbn [length seq combine]. destruct (IH (S k)) as [A B]. split; [split; auto; intros y Hy; apply B in Hy; cbn; lia|].
  intros x [<-|Hx]; [cbn; lia|]. apply B in Hx. lia.
Qed.
Lemma enum_wf : forall n l, Forall (bgate n) l -> wf n (enumerate l).
Proof.
  intros n l F. split; [apply enum_srt|]. intros g Hg. rewrite Forall_forall in F. apply F. rewrite <- (enum_snd l 0). apply in_map. auto.
Qed.
Lemma load_ok : forall n l, Forall (bgate n) l -> exists G, load n l = Ok G /\ tab n (enumerate l) G.
Proof.
  intros n l F. destruct (loads_ok load_step n (load_step_ok n) (enumerate l) [] _ (tab_nil n) (proj2 (enum_wf n l F))) as [G [A B]]. exists G. auto.
Qed.
Lemma rload_ok : forall n l, Forall (bgate n) l -> exists G, rload n l = Ok G /\ tab n (enumerate l) G.
Proof.
  intros n l F. destruct (loads_ok rload_step n (rload_step_ok n) (enumerate l) [] _ (tab_nil n) (proj2 (enum_wf n l F))) as [G [A B]]. exists G. auto.
Qed.

(** ** the gates that are left *)
Definition cstep (a : list igate * list nat) (g : igate) : list igate * list nat := let '(l, ix) := a in if nmem (fst g) ix then a else (l ++ [g], ix ++ [fst g]).
Lemma collect_inv : forall L X a, srt L -> (forall g, In g X -> In g L) -> (forall g, In g (fst a) -> In g L) -> NoDup (fst a) -> snd a = map fst (fst a) ->
  NoDup (fst (fold_left cstep X a)) /\ forall g, In g (fst (fold_left cstep X a)) <-> In g (fst a) \/ In g X.
Proof.
  intros L X. induction X as [|g X IH]; intros [l ix] SL HX Hl ND E; cbn [fst snd] in *; [cbn; split; auto; intros; tauto|]. cbn [fold_left]. subst ix.
  assert (Hg : In g L) by (apply HX; left; auto). unfold cstep at 2 4. destruct (nmem (fst g) (map fst l)) eqn:M.
  - apply nmem_in in M. apply in_map_iff in M. destruct M as [g' [Eg Hg']]. assert (g' = g) by (apply (srt_uniq L); auto). subst g'.
    destruct (IH (l, map fst l) SL ltac:(intros; apply HX; right; auto) Hl ND eq_refl) as [A B]. split; auto. intros x. rewrite B. cbn [fst In]. split; [tauto|]. intros [H|[<-|H]]; auto.
  - apply nmem_false in M. assert (NI : ~ In g l) by (intros K; apply M, in_map; auto).
    destruct (IH (l ++ [g], map fst l ++ [fst g]) SL ltac:(intros; apply HX; right; auto)) as [A B]; cbn [fst snd].
    + intros x Hx. apply in_app_or in Hx. destruct Hx as [Hx|[<-|[]]]; auto.
    + apply (Permutation_NoDup (Permutation_cons_append l g)). constructor; auto.
    + rewrite map_app. auto.
    + split; auto. intros x. rewrite B. cbn [fst]. rewrite in_app_iff. cbn [In]. tauto.
Qed.
Lemma collect_ok : forall n L G, wf n L -> tab n L G -> NoDup (collect G) /\ forall g, In g (collect G) <-> In g L.
Proof.
  intros n L G W [T1 T2].
  assert (IC : forall g, In g (concat G) <-> In g L).
  { intros g. rewrite in_concat. split.
    - intros [l [Hl Hg]]. apply In_nth_error in Hl. destruct Hl as [q Hq]. assert (q < n) by (rewrite <- T1; apply nth_error_Some; congruence). rewrite T2 in Hq by auto. inversion Hq; subst. apply lq_in in Hg. tauto.
    - intros Hg. destruct (wg_on (snd g)) as [q O]; [apply (wf_wgs n L); auto|]. exists (lq q L). split; [|apply lq_in; auto]. apply (nth_error_In G q). apply T2. apply (bgate_lt n (snd g)); auto. apply W; auto. }
  destruct (collect_inv L (concat G) ([], []) (proj1 W) ltac:(intros; apply IC; auto) ltac:(intros g []) ltac:(constructor) eq_refl) as [A B].
  change (collect G) with (fst (fold_left cstep (concat G) ([], []))). split; auto. intros g. rewrite B, IC. cbn [fst In]. tauto.
Qed.
Fixpoint dsrt (L : list igate) : Prop := match L with [] => True | x :: L => (forall y, In y L -> fst y < fst x) /\ dsrt L end.
Lemma dsrt_ext : forall A B, dsrt A -> dsrt B -> (forall x, In x A <-> In x B) -> A = B.
Proof.
  induction A as [|a A IH]; intros [|b B] SA SB H; auto.
  - exfalso. apply (H b). left; auto.
  - exfalso. apply (H a). left; auto.
  - destruct SA as [SA1 SA], SB as [SB1 SB]. assert (a = b).
    { destruct (proj1 (H a) (or_introl eq_refl)) as [|Ha]; auto. destruct (proj2 (H b) (or_introl eq_refl)) as [|Hb]; auto. specialize (SA1 b Hb). specialize (SB1 a Ha). lia. }
    subst b. f_equal. apply IH; auto. intros x. split; intros Hx.
    + destruct (proj1 (H x) (or_intror Hx)) as [<-|]; auto. specialize (SA1 a Hx). lia.
    + destruct (proj2 (H x) (or_intror Hx)) as [<-|]; auto. specialize (SB1 a Hx). lia.
Qed.
Lemma insert_in : forall g l x, In x (insert_desc g l) <-> x = g \/ In x l.
Proof.
  intros g l x. induction l as [|h l IH]; cbn [insert_desc In]; [intuition|]. destruct (Nat.leb (fst h) (fst g)); cbn [In]; [intuition|]. rewrite IH. intuition.
Qed.
Lemma insert_dsrt : forall g l, dsrt l -> (forall x, In x l -> fst x <> fst g) -> dsrt (insert_desc g l).
Proof.
  intros g l. induction l as [|h l IH]; intros S H; cbn [insert_desc]; [split; [intros y []|exact I]|]. destruct S as [S1 S2]. assert (N := H h (or_introl eq_refl)). destruct (Nat.leb_spec (fst h) (fst g)) as [C|C].
  - split; [|split; auto]. intros y [<-|Hy]; [lia|]. specialize (S1 y Hy). lia.
  - split; [|apply IH; auto; intros; apply H; right; auto]. intros y Hy. apply insert_in in Hy. destruct Hy as [->|Hy]; auto.
Qed.
Lemma sort_ok : forall l, NoDup l -> (forall a b, In a l -> In b l -> fst a = fst b -> a = b) -> dsrt (sort_desc l) /\ forall x, In x (sort_desc l) <-> In x l.
Proof.
  induction l as [|g l IH]; intros ND U; [split; [exact I|tauto]|]. inversion ND; subst. change (sort_desc (g :: l)) with (insert_desc g (sort_desc l)).
  destruct (IH H2 ltac:(intros; apply U; auto; right; auto)) as [A B]. split.
  - apply insert_dsrt; auto. intros x Hx E. apply B in Hx. assert (x = g) by (apply U; auto; [right; auto|left; auto]). subst. auto.
  - intros x. rewrite insert_in, B. cbn [In]. intuition.
Qed.
Lemma dsrt_snoc : forall A x, dsrt A -> (forall y, In y A -> fst x < fst y) -> dsrt (A ++ [x]).
Proof.
  induction A as [|a A IH]; intros x S H; cbn [app]; [split; [intros y []|exact I]|]. destruct S as [S1 S2]. split; [|apply IH; auto; intros; apply H; right; auto].
  intros y Hy. apply in_app_or in Hy. destruct Hy as [Hy|[<-|[]]]; auto. apply H. left; auto.
Qed.
Lemma srt_rev : forall L, srt L -> dsrt (rev L).
Proof.
  induction L as [|x L IH]; intros S; [exact I|]. destruct S as [S1 S2]. cbn [rev]. apply dsrt_snoc; auto. intros y Hy. apply S1. apply in_rev. auto.
Qed.
Lemma left_ok : forall n L G, wf n L -> tab n L G -> sort_desc (collect G) = rev L.
Proof.
  intros n L G W T. destruct (collect_ok n L G W T) as [A B].
  destruct (sort_ok (collect G) A) as [C D]; [intros a b Ha Hb; apply (srt_uniq L); [apply W|apply B; auto|apply B; auto]|].
  apply dsrt_ext; auto; [apply srt_rev, W|]. intros x. rewrite D, B. apply in_rev.
Qed.

(** ** reversing *)
Lemma rev_eq : forall n l l', Forall (ogate n) l -> Forall (ogate n) l' -> (forall s, cden l s = cden l' s) -> forall s, cden (rev l) s = cden (rev l') s.
Proof.
  intros n l l' F F' E s. assert (K : forall u, cden (map to_adjoint (rev l)) u = cden (map to_adjoint (rev l')) u).
  { intros u. rewrite <- (inv_r n l' u F') at 1. rewrite <- E. apply (inv_l n); auto. }
  rewrite (rev_den n l), (rev_den n l'), K by auto. auto.
Qed.
Lemma had_had_comm : forall a b s, gden (GHAD a) (gden (GHAD b) s) = gden (GHAD b) (gden (GHAD a) s).
Proof. intros a b s. destruct (Nat.eq_dec a b) as [->|N]; auto. apply had_comm; [exact I|]. rewrite on_had. apply Nat.eqb_neq; auto. Qed.
Definition allhad (hs : list gate) : Prop := forall h, In h hs -> exists q, h = GHAD q.
Lemma hads_pass : forall hs a s, allhad hs -> gden (GHAD a) (cden hs s) = cden hs (gden (GHAD a) s).
Proof.
  induction hs as [|h hs IH]; intros a s A; auto. destruct (A h (or_introl eq_refl)) as [q ->]. rewrite !cden_cons, IH by (intros x Hx; apply A; right; auto). rewrite had_had_comm. auto.
Qed.
Lemma hads_rev : forall hs s, allhad hs -> cden (rev hs) s = cden hs s.
Proof.
  induction hs as [|h hs IH]; intros s A; auto. destruct (A h (or_introl eq_refl)) as [q ->]. cbn [rev]. assert (A' : allhad hs) by (intros x Hx; apply A; right; auto). rewrite cden_app, cden_cons, IH by auto. apply hads_pass. auto.
Qed.
Lemma hads_allhad : forall n hs, hads_ok n hs -> allhad hs. Proof. intros n hs [_ H] h Hh. destruct (H h Hh) as [q [_ ->]]. eauto. Qed.
Lemma hads_bgate : forall n hs, hads_ok n hs -> Forall (bgate n) hs.
Proof. intros n hs [_ H]. apply Forall_forall. intros h Hh. destruct (H h Hh) as [q [L ->]]. exact L. Qed.
Lemma bgate_ogate : forall n g, bgate n g -> ogate n g. Proof. intros n g B. destruct g; cbn in *; tauto. Qed.
Lemma todd_bgate : forall n g, ToddSem.todd_gate n g -> bgate n g. Proof. intros n g B. destruct g; cbn in *; tauto. Qed.
Lemma tcnt_perm : forall a b : list gate, Permutation a b -> tcnt a = tcnt b.
Proof.
  intros a b P. induction P; auto; cbn [ToddSem.tcnt fold_right] in *; try change (fold_right _ 0 l) with (tcnt l) in *; try change (fold_right _ 0 l') with (tcnt l') in *; [rewrite IHP; auto| |congruence].
  destruct x, y; auto; repeat destruct (Pos.ltb _ _); auto.
Qed.
Lemma tcnt_rev : forall l, tcnt (rev l) = tcnt l. Proof. intros l. apply tcnt_perm, Permutation_sym, Permutation_rev. Qed.
Lemma blk_todd : forall n B, blk n B -> Forall (ToddSem.todd_gate n) (map snd B).
Proof.
  intros n B H. apply Forall_forall. intros g Hg. apply in_map_iff in Hg. destruct Hg as [x [<- Hx]]. destruct (H x Hx) as [A N]. unfold nohad in N. destruct (snd x) eqn:E; cbn in *; try tauto. exfalso. apply (N target). auto.
Qed.
Lemma filter_map_len : forall (L : list igate), cnth L = length (filter (fun g => match g with GHAD _ => true | _ => false end) (map snd L)).
Proof. unfold cnth. induction L as [|x L IH]; auto. cbn [map filter]. unfold ishad at 1. destruct (snd x); cbn [length]; auto. Qed.
Lemma todd_nohad : forall n l, Forall (ToddSem.todd_gate n) l -> filter (fun g => match g with GHAD _ => true | _ => false end) l = [].
Proof. intros n l F. apply filter_none. intros g Hg. rewrite Forall_forall in F. specialize (F g Hg). destruct g; auto. destruct F. Qed.
Lemma split_cmp : forall (x : gate) A B C h1, A ++ x :: B = h1 ++ x :: C -> A = h1 \/ exists Z, A = h1 ++ x :: Z \/ h1 = A ++ x :: Z.
Proof.
  intros x. induction A as [|a A IH]; intros B C [|y h1] E; cbn [app] in E.
  - left. auto.
  - injection E as <- _. right. exists h1. right. auto.
  - injection E as -> _. right. exists A. left. auto.
  - injection E as <- E. destruct (IH _ _ _ E) as [->|[Z [->| ->]]]; [left; auto|right; exists Z; left; auto|right; exists Z; right; auto].
Qed.
Lemma rev_Phad : forall n hs l, hads_ok n hs -> Forall (ToddSem.todd_gate n) l -> Phad (enumerate (hs ++ l)) /\ cnth (enumerate (hs ++ l)) = length hs.
Proof.
  intros n hs l H F. split.
  - intros h q Hh E. assert (ES := enum_snd (hs ++ l) 0). fold (enumerate (hs ++ l)) in ES.
    assert (HI : In (snd h) (hs ++ l)) by (rewrite <- ES; apply in_map; auto). rewrite E in HI. apply in_app_or in HI. destruct HI as [HI|HI]; [|rewrite Forall_forall in F; destruct (F _ HI)].
    destruct (in_split _ _ Hh) as [X [Y EX]]. rewrite EX in ES |- *. rewrite lq_app, lq_cons, E, on_had, Nat.eqb_refl. rewrite map_app in ES. cbn [map] in ES. rewrite E in ES.
    assert (LX : lq q X = []); [|rewrite LX; eexists; reflexivity]. apply filter_none. intros a Ha. destruct (onq q (snd a)) eqn:O; auto. exfalso.
    (* the position of h lies within hs *)
    apply in_split in HI. destruct HI as [h1 [h2 Eh]].
    assert (CX : map snd X = h1 \/ exists Z, map snd X = h1 ++ GHAD q :: Z \/ h1 = map snd X ++ GHAD q :: Z).
    { rewrite Eh, <- app_assoc in ES. cbn [app] in ES. clear -ES. apply (split_cmp _ (map snd X) (map snd Y) (h2 ++ l)); auto. }
    destruct H as [ND H]. unfold igate in *.
    destruct CX as [CX|[Z [CX|CX]]].
    + assert (Ia : In (snd a) h1) by (rewrite <- CX; apply in_map; auto). destruct (H (snd a)) as [q' [_ Ea]]; [rewrite Eh; apply in_or_app; auto|]. rewrite Ea, on_had in O. apply Nat.eqb_eq in O. subst q'.
      rewrite Eh in ND. apply NoDup_remove_2 in ND. apply ND. apply in_or_app. left. rewrite <- Ea. auto.
    + (* a second H on q in hs or l *)
      rewrite CX, Eh, <- !app_assoc in ES. cbn [app] in ES. apply app_inv_head in ES. inversion ES as [ES'].
      assert (K : In (GHAD q) (h2 ++ l)) by (rewrite <- ES'; apply in_or_app; right; left; auto). apply in_app_or in K. destruct K as [K|K]; [|rewrite Forall_forall in F; destruct (F _ K)].
      rewrite Eh in ND. apply NoDup_remove_2 in ND. apply ND. apply in_or_app. auto.
    + rewrite Eh, CX, <- !app_assoc in ES. cbn [app] in ES. rewrite Eh, CX, <- app_assoc in ND. cbn [app] in ND. apply NoDup_remove_2 in ND. apply ND. apply in_or_app. right. apply in_or_app. right. left; auto.
  - rewrite filter_map_len. unfold enumerate. rewrite (enum_snd (hs ++ l) 0), filter_app, (todd_nohad n l) by auto. rewrite app_nil_r. rewrite filter_all; auto. intros x Hx. destruct (hads_allhad n hs H x Hx) as [q ->]. auto.
Qed.

(** ** the loop *)
Lemma is_nil_tab : forall n L G, wf n L -> tab n L G -> (forallb is_nil G = true <-> L = []).
Proof.
  intros n L G W T. destruct (collect_ok n L G W T) as [_ B]. destruct T as [T1 T2]. split.
  - intros H. destruct L as [|g L]; auto. exfalso. destruct (wg_on (snd g)) as [q O]; [apply (wf_wgs n (g :: L)); auto; left; auto|].
    assert (q < n) by (apply (bgate_lt n (snd g)); auto; apply W; left; auto). rewrite forallb_forall in H. specialize (H _ (nth_error_In G q (T2 q H0))). rewrite lq_cons, O in H. discriminate.
  - intros ->. apply forallb_forall. intros l Hl. apply In_nth_error in Hl. destruct Hl as [q Hq]. rewrite T2 in Hq by (rewrite <- T1; apply nth_error_Some; congruence). inversion Hq. auto.
Qed.
Lemma mapM_perm : forall n perm, perm_dict perm -> length perm = n -> exists perm', 
  mapM (fun i => let* j := dlook i (map (fun i => (i, i)) (seq 0 n)) in let* v := dlook j perm in Ok (i, v)) (seq 0 n) = Ok perm' /\ Permutation perm perm'.
Proof.
  intros n perm [PK PV] L. assert (NK : NoDup (map fst perm)) by (apply (Permutation_NoDup (Permutation_sym PK)), seq_NoDup).
  assert (K : forall is, (forall i, In i is -> i < n) -> exists l, mapM (fun i => let* j := dlook i (map (fun i => (i, i)) (seq 0 n)) in let* v := dlook j perm in Ok (i, v)) is = Ok l /\ map fst l = is /\ forall x, In x l -> In x perm).
  { induction is as [|i is IH]; intros Hi; [exists []; repeat split; auto; intros x []|]. cbn [mapM].
    rewrite (proj2 (dlook_in (map (fun i => (i, i)) (seq 0 n)) i i ltac:(rewrite map_map; cbn [fst]; rewrite map_id; apply seq_NoDup))) by (apply in_map_iff; exists i; split; auto; apply in_seq; specialize (Hi i (or_introl eq_refl)); lia). cbn [bind].
    destruct (dlook_has perm i) as [v Ev]; [apply (Permutation_in _ (Permutation_sym PK)); rewrite L; apply in_seq; specialize (Hi i (or_introl eq_refl)); lia|]. rewrite Ev. cbn [bind].
    destruct (IH ltac:(intros; apply Hi; right; auto)) as [l [El [Fl Il]]]. rewrite El. cbn [bind]. eexists. split; [reflexivity|]. cbn [map fst]. split; [rewrite Fl; auto|].
    intros x [<-|Hx]; auto. apply (dlook_in perm i v NK). auto. }
  destruct (K (seq 0 n)) as [l [El [Fl Il]]]; [intros i Hi; apply in_seq in Hi; lia|]. exists l. split; auto. apply Permutation_sym, NoDup_Permutation_bis; auto.
  - apply (NoDup_map_inv fst). rewrite Fl. apply seq_NoDup.
  - rewrite <- (map_length fst l), Fl, seq_length. lia.
Qed.
Lemma todd_ogate : forall n l, Forall (ToddSem.todd_gate n) l -> Forall (ogate n) l.
Proof. intros n l F. eapply Forall_impl; [|exact F]. intros g H. apply bgate_ogate, todd_bgate, H. Qed.
Lemma bgates_ogate : forall n l, Forall (bgate n) l -> Forall (ogate n) l.
Proof. intros n l F. eapply Forall_impl; [|exact F]. intros g H. apply bgate_ogate, H. Qed.
Lemma wf_bgates : forall n L, wf n L -> Forall (bgate n) (map snd L).
Proof. intros n L [_ B]. apply Forall_forall. intros g Hg. apply in_map_iff in Hg. destruct Hg as [x [<- Hx]]. auto. Qed.

(** what one round does to the block in front *)
Lemma front_round : forall n block hads, Forall (ToddSem.todd_gate n) block -> hads_ok n hads ->
  exists R0 R revblock had2 Lr, rload n (hads ++ rev block) = Ok R0 /\ greedy_consume_gates R0 = Ok (R, revblock, had2) /\ length hads = length had2 /\
    blk n revblock /\ sort_desc (collect R) = rev Lr /\ Forall (bgate n) (map snd (rev Lr)) /\ Forall (bgate n) (map snd had2) /\
    (forall s, cden (block ++ hads) s = cden (map snd (rev Lr) ++ map snd had2 ++ rev (map snd revblock)) s) /\
    tcnt (block ++ hads) = tcnt (map snd (rev Lr) ++ map snd had2 ++ rev (map snd revblock)).
Proof.
  intros n block hads FB HH. assert (FR : Forall (bgate n) (hads ++ rev block)).
  { apply Forall_app. split; [apply hads_bgate; auto|]. apply Forall_rev. eapply Forall_impl; [|exact FB]. intros g. apply todd_bgate. }
  destruct (rload_ok n _ FR) as [R0 [E0 T0]]. assert (W0 := enum_wf n _ FR). destruct (greedy_ok n _ R0 W0 T0) as [R [revblock [had2 [Lr [E1 [W1 [T1 [B1 [H1 [_ [D1 [C1 P1]]]]]]]]]]]].
  destruct (rev_Phad n hads (rev block) HH (Forall_rev FB)) as [PH CN]. specialize (P1 PH). rewrite CN in P1.
  exists R0, R, revblock, had2, Lr. split; auto. split; auto. split; auto. split; auto. split; [apply (left_ok n); auto|].
  assert (FL := wf_bgates n Lr W1). assert (FH := hads_bgate n _ H1). assert (FV := blk_todd n _ B1).
  split; [rewrite map_rev; apply Forall_rev; auto|]. split; auto.
  assert (ES := enum_snd (hads ++ rev block) 0). fold (enumerate (hads ++ rev block)) in ES.
  assert (D2 : forall s, cden (hads ++ rev block) s = cden (map snd revblock ++ map snd had2 ++ map snd Lr) s).
  { intros s. assert (D := D1 s). unfold tden in D. unfold igate in *. rewrite ES, !map_app in D. exact D. }
  split.
  - intros s. assert (FW : Forall (ogate n) (map snd revblock ++ map snd had2 ++ map snd Lr)) by (apply Forall_app; split; [apply todd_ogate; auto|apply Forall_app; split; apply bgates_ogate; auto]).
    assert (K := rev_eq n _ _ (bgates_ogate n _ FR) FW D2 s).
    rewrite !rev_app_distr, rev_involutive, <- app_assoc in K. rewrite !cden_app in K |- *. rewrite (hads_rev hads) in K by (apply (hads_allhad n); auto). rewrite (hads_rev (map snd had2)) in K by (apply (hads_allhad n); auto).
    rewrite K, map_rev. auto.
  - unfold igate in *. rewrite ES, !map_app in C1. rewrite !ToddSem.tcnt_app in *. rewrite !map_rev, !tcnt_rev in *. lia.
Qed.

Theorem block_loop_ok : forall sh hist n, 2 <= n <= 499 -> (forall k l, Permutation (sh k l) l) -> forall fuel k L G perm consumed block hads,
  wf n L -> tab n L G -> length L <= fuel -> Forall (bgate n) consumed -> Forall (ToddSem.todd_gate n) block -> hads_ok n hads -> perm_dict perm -> length perm = n ->
  exists consumed' block' hads' perm', block_loop fuel k sh hist n G perm consumed block hads = Ok (consumed', block', hads', perm') /\
    Forall (bgate n) (consumed' ++ block' ++ hads') /\ Permutation perm perm' /\
    (forall s, cden (consumed' ++ block' ++ hads') s = cden (consumed ++ block ++ hads ++ map snd L) s) /\
    tcnt (consumed' ++ block' ++ hads') <= tcnt (consumed ++ block ++ hads ++ map snd L).
Proof.
  intros sh hist n Hn SH. induction fuel as [|f IH]; intros k L G perm consumed block hads W T LE FC FB HH PD LP.
  - assert (EL : L = []) by (destruct L; auto; cbn in LE; lia). subst L. cbn [block_loop]. rewrite (proj2 (is_nil_tab n [] G W T)) by auto. eexists _, _, _, _. split; [reflexivity|]. cbn [map]. rewrite app_nil_r.
    split; [|auto]. apply Forall_app. split; auto. apply Forall_app. split; [|apply hads_bgate; auto]. eapply Forall_impl; [|exact FB]. intros g. apply todd_bgate.
  - cbn [block_loop]. destruct (forallb is_nil G) eqn:EN.
    + apply (is_nil_tab n L G W T) in EN. subst L. eexists _, _, _, _. split; [reflexivity|]. cbn [map]. rewrite app_nil_r.
      split; [|auto]. apply Forall_app. split; auto. apply Forall_app. split; [|apply hads_bgate; auto]. eapply Forall_impl; [|exact FB]. intros g. apply todd_bgate.
    + assert (NL : L <> []) by (intros K; apply (is_nil_tab n L G W T) in K; congruence).
      destruct (front_round n block hads FB HH) as [R0 [R [revblock [had2 [Lr [E0 [E1 [LH [B1 [SL [F1 [F2 [D1 C1]]]]]]]]]]]]]. rewrite E0. cbn [bind]. rewrite E1. cbn [bind]. rewrite LH, Nat.eqb_refl. cbn [negb].
      destruct (greedy_ok n L G W T) as [G2 [newblock [hads2 [L2 [E2 [W2 [T2 [B2 [H2 [LT [D2 [C2 _]]]]]]]]]]]]. rewrite E2. cbn [bind].
      assert (FT : Forall (ToddSem.todd_gate n) (rev (map snd revblock) ++ map snd newblock)) by (apply Forall_app; split; [apply Forall_rev, blk_todd; auto|apply blk_todd; auto]).
      destruct (ToddProofs.todd_simp_ok n (sh k) (hist k) _ Hn FT (SH k)) as [b3 [E3 [F3 [D3 C3]]]]. rewrite E3. cbn [bind].
      destruct (mapM_perm n perm PD LP) as [perm3 [E4 P4]]. rewrite E4. cbn [bind].
      destruct (IH (S k) L2 G2 perm3 (consumed ++ map snd (sort_desc (collect R)) ++ map snd had2) b3 (map snd hads2) W2 T2 ltac:(specialize (LT NL); lia)) as [c' [b' [h' [p' [E5 [F5 [P5 [D5 C5]]]]]]]]; auto.
      * apply Forall_app. split; auto. apply Forall_app. split; auto. rewrite SL. auto.
      * destruct PD as [PK PV]. unfold perm_dict. rewrite <- (Permutation_length P4). split; [eapply Permutation_trans; [apply Permutation_sym, Permutation_map; exact P4|auto]|eapply Permutation_trans; [apply Permutation_sym, Permutation_map; exact P4|auto]].
      * rewrite <- (Permutation_length P4). auto.
      * exists c', b', h', p'. split; auto. split; auto. split; [eapply Permutation_trans; eauto|]. split.
        -- intros s. rewrite D5. rewrite SL. assert (D2' : forall u, cden (map snd L) u = cden (map snd newblock ++ map snd hads2 ++ map snd L2) u) by (intros u; assert (D := D2 u); unfold tden in D; unfold igate in *; rewrite !map_app in D; exact D).
           rewrite (app_assoc block hads). rewrite !cden_app. rewrite <- (cden_app block hads). rewrite D1, D2', !cden_app. rewrite D3, !cden_app. auto.
        -- eapply Nat.le_trans; [exact C5|]. rewrite SL. unfold igate in *. rewrite !map_app in C2. rewrite !ToddSem.tcnt_app in *. rewrite !tcnt_rev in *. lia.
Qed.

(** find_stabilizer_decomp: the terms are Clifford, add up to the diagram, and how many there can be. *)
From Coq Require Import Reals ZArith QArith Qcanon List Bool Arith Lia.
From Verif Require Import LinModel LinProofs CNum Base ScalarModel ScalarProofs GraphModel GraphSem SumLemmas GraphProofs
  RulesModel RuleLemmas SimpModel SimpProofs PairProofs GadgetProofs IsoProofs PivotMatch InvProofs BfixProofs TotalProofs GrowTotal FullTotal ZXFacts RedFacts TCount TCountRules TCountFacts GraphAlgProofs GraphAlgFacts
  MagicModel MagicAlg MagicSum SimuModel ReduceScalar.
Import ListNotations.
Open Scope nat_scope.

(** Closed or open diagrams of Z spiders with phases multiples of pi/4 *)
Definition sdiag (g : graph) : Prop := zinv g /\ noX g /\ io_ok g /\ allph quarter g.
Lemma sdiag_types : forall g, sdiag g -> forall v, In v (vertices g) -> vty g v = ZSP \/ vty g v = BOUNDARY.
Proof. intros g [Z [N _]] v Hv. assert (X := zx_zx _ (zi_zx _ Z) v Hv). assert (Y := N v Hv). destruct (vty g v); auto; congruence. Qed.
Lemma sdiag_tz : forall g, sdiag g -> tz g.
Proof.
  intros g S v Hv T. destruct (sdiag_types g S v Hv) as [|B]; auto. destruct S as [Z _]. rewrite (zi_ph _ Z v Hv B) in T. discriminate.
Qed.
Lemma quarter_nc : forall p, in02 p -> quarter p -> non_clifford p = tlike p.
Proof. intros p I Q. destruct (quarter_cases p I Q) as [->|[->|[->|[->|[->|[->|[->| ->]]]]]]]; vm_compute; reflexivity. Qed.
Lemma sdiag_tnum : forall g, sdiag g -> tnum g = tcount g.
Proof.
  intros g [Z [_ [_ Q]]]. unfold tnum, tcount, tspiders. f_equal. apply filter_ext_in. intros v Hv. apply quarter_nc; [apply (zx_ph _ (zi_zx _ Z)); auto|apply Q; auto].
Qed.
Lemma sdiag_count : forall g, sdiag g -> tcount_r g = Ok (tcount g).
Proof. intros g S. rewrite tcount_ok, sdiag_tnum; auto. apply (zi_zx _ (proj1 S)). Qed.
Lemma glike_noX : forall g, glike g -> noX g.
Proof. intros g G v Hv E. destruct (proj1 G v Hv); congruence. Qed.

(** ** Simplifying the terms *)
(** same interface lengths and same value *)
Definition same_val (g h : graph) : Prop := length (ginputs h) = length (ginputs g) /\ length (goutputs h) = length (goutputs g) /\ forall i y, val h i y = val g i y.
Lemma same_map_val : forall g h, same_map g h -> same_val g h.
Proof. intros g h [I [O S]]. unfold same_val, val. rewrite I, O. split; auto. Qed.
Lemma rel_sdiag : forall g h, zinv h -> noX h -> sdiag g -> rel g h -> sdiag h /\ same_map g h.
Proof.
  intros g h Z N S R. assert (K := rel_kept _ _ R). destruct K as [[I [O _]] M]. destruct S as [_ [_ [IO Q]]]. specialize (M Q). split; auto.
  split; auto. split; auto. split; [unfold io_ok; rewrite I, O; auto|].
  exact (proj2 (R _ _ good_quarter Q)).
Qed.
Lemma is_zero_val : forall g i y, is_zero (gscalar g) = true -> val g i y = C0.
Proof.
  intros g i y H. unfold val, sem. rewrite (sumv_ext _ _ (fun _ => C0)); [apply sumv_0|]. intros x. unfold integL, to_number. rewrite H. ring.
Qed.
Lemma reduce_sdiag : forall g r, sdiag g -> run reduce_scalar g r -> r = Err KeyError \/ exists a h, r = Ok (a, h) /\ sdiag h /\ same_map g h /\ tcount h <= tcount g.
Proof.
  intros g r S R. destruct (reduce_scalar_parr g r (conj (proj1 S) (proj1 (proj2 S))) R) as [E|[a [h [E [[Z [G _]] [L T]]]]]]; auto. right. exists a, h. split; auto.
  destruct (rel_sdiag g h Z (glike_noX _ G) S L) as [S' M]. split; auto. split; auto. rewrite <- !sdiag_tnum; auto.
Qed.
Definition total (gs : list graph) (i y : assignment) : C := csum (map (fun h => val h i y) gs).
Lemma sum_reduce_sdiag : forall gs r n, sum_reduce reduce_scalar gs r -> Forall (fun h => sdiag h /\ tcount h <= n) gs ->
  r = Err KeyError \/ exists ts, r = Ok ts /\ length ts <= length gs /\ Forall (fun h => (sdiag h /\ tcount h <= n) /\ exists g, In g gs /\ ginputs h = ginputs g /\ goutputs h = goutputs g) ts /\ forall i y, total ts i y = total gs i y.
Proof.
  intros gs r n H. induction H as [|g gs e R|g gs a g' ts R NZ H IH|g gs a g' ts R NZ H IH|g gs a g' e R H IH]; intros F.
  - right. exists []. repeat split; auto.
  - apply Forall_inv in F. destruct (reduce_sdiag g _ (proj1 F) R) as [E|[a [h [E _]]]]; [left; congruence|discriminate].
  - assert (F0 := Forall_inv F). assert (F1 := proj2 F0). cbn beta in F1. apply Forall_inv_tail in F. destruct (IH F) as [E|[ts' [E [L [F' S]]]]]; [discriminate|]. injection E as <-. right. exists (g' :: ts).
    destruct (reduce_sdiag g _ (proj1 F0) R) as [E|[b [h [E [SD [M T]]]]]]; [discriminate|]. injection E as <- <-. split; auto. split; [cbn; lia|]. split.
    + constructor. { split; [split; [auto|lia]|]. exists g. split; [left; auto|]. split; apply M. }
      eapply Forall_impl; [|exact F']. intros h [Hh [g0 [Ig X]]]. split; auto. exists g0. split; auto. right; auto.
    + intros i y. unfold total in *. cbn [map csum fold_right]. unfold csum in S. rewrite S. f_equal. apply (same_map_val _ _ M).
  - assert (F0 := Forall_inv F). assert (F1 := proj2 F0). cbn beta in F1. apply Forall_inv_tail in F. destruct (IH F) as [E|[ts' [E [L [F' S]]]]]; [discriminate|]. injection E as <-. right. exists ts.
    destruct (reduce_sdiag g _ (proj1 F0) R) as [E|[b [h [E [SD [M T]]]]]]; [discriminate|]. injection E as <- <-. split; auto. split; [cbn; lia|]. split.
    + eapply Forall_impl; [|exact F']. intros h [Hh [g0 [Ig X]]]. split; auto. exists g0. split; auto. right; auto.
    + intros i y. rewrite S. unfold total. cbn [map csum fold_right]. rewrite <- (proj2 (proj2 (same_map_val _ _ M))), is_zero_val by auto. unfold csum. ring.
  - apply Forall_inv_tail in F. destruct (IH F) as [E|[ts' [E _]]]; [left; auto|discriminate].
Qed.
(** full_reduce always returns *)
Lemma sum_full : forall gs r, sum_reduce (full_reduce AllC) gs r -> Forall (fun g => zinv g /\ allph quarter g) gs ->
  exists ts, r = Ok ts /\ length ts <= length gs /\ Forall (fun h => zinv h /\ glike h /\ is_zero (gscalar h) = false) ts /\ forall i y, total ts i y = total gs i y.
Proof.
  intros gs r H. induction H as [|g gs e R|g gs a g' ts R NZ H IH|g gs a g' ts R NZ H IH|g gs a g' e R H IH]; intros F.
  - exists []. repeat split; auto.
  - apply Forall_inv in F. destruct (full_reduce_correct g (proj1 F) _ R) as [a [h [E _]]]. discriminate.
  - assert (F0 := Forall_inv F). apply Forall_inv_tail in F. destruct (IH F) as [ts' [E [L [F' S]]]]. injection E as <-. exists (g' :: ts).
    destruct (full_reduce_correct g (proj1 F0) _ R) as [b [h [E [[ZH GH] M]]]]. injection E as <- <-. split; auto. split; [cbn; lia|]. split; [constructor; auto|].
    intros i y. unfold total in *. cbn [map csum fold_right]. unfold csum in S. rewrite S. f_equal. apply (same_map_val _ _ (proj2 M (proj2 F0))).
  - assert (F0 := Forall_inv F). apply Forall_inv_tail in F. destruct (IH F) as [ts' [E [L [F' S]]]]. injection E as <-. exists ts.
    destruct (full_reduce_correct g (proj1 F0) _ R) as [b [h [E [[ZH GH] M]]]]. injection E as <- <-. split; auto. split; [cbn; lia|]. split; auto.
    intros i y. rewrite S. unfold total. cbn [map csum fold_right]. rewrite <- (proj2 (proj2 (same_map_val _ _ (proj2 M (proj2 F0))))), is_zero_val by auto. unfold csum. ring.
  - apply Forall_inv_tail in F. destruct (IH F) as [ts' [E _]]. discriminate.
Qed.

(** ** The number of terms *)
(** six T-like spiders become seven terms, fewer than six become two; reduce_scalar may lower the T-count further *)
Definition step_bound (n : nat) : nat := if Nat.leb 6 n then 7 else 2.
Definition bound (n : nat) : nat := if Nat.leb 12 n && Nat.eqb (n mod 6) 0 then 8 * 7 ^ (n / 6 - 1) else max_terms n.
Lemma max_terms_6 : forall n, max_terms (n + 6) = 7 * max_terms n.
Proof.
  intros n. unfold max_terms. replace (n + 6) with (n + 1 * 6) by lia. rewrite Nat.div_add by lia. replace (n + 1 * 6 - 6 * (n / 6 + 1)) with (n - 6 * (n / 6)) by lia.
  rewrite Nat.add_1_r, Nat.pow_succ_r'. destruct (Nat.eqb _ 5); [lia|]. destruct (_ || _); [lia|]. destruct (_ || _); lia.
Qed.
Lemma bound_6 : forall n, 6 < n -> bound (n + 6) = 7 * bound n.
Proof.
  intros n H. unfold bound. rewrite max_terms_6. assert (M : (n + 6) mod 6 = n mod 6) by (replace (n + 6) with (n + 1 * 6) by lia; apply Nat.mod_add; lia).
  assert (D : (n + 6) / 6 = n / 6 + 1) by (replace (n + 6) with (n + 1 * 6) by lia; apply Nat.div_add; lia). rewrite M, D.
  destruct (Nat.eqb_spec (n mod 6) 0) as [E|E]; [|rewrite !andb_false_r; reflexivity]. rewrite !andb_true_r.
  assert (12 <= n) by (rewrite (Nat.div_mod n 6) by lia; rewrite E; assert (2 <= n / 6) by (assert (X := Nat.div_mod n 6 ltac:(lia)); lia); lia).
  rewrite (proj2 (Nat.leb_le 12 n)), (proj2 (Nat.leb_le 12 _)) by lia. assert (2 <= n / 6) by (apply Nat.div_le_lower_bound; lia).
  replace (n / 6 + 1 - 1) with (S (n / 6 - 1)) by lia. rewrite Nat.pow_succ_r'. lia.
Qed.
Lemma bound_mono : forall N m, 7 <= N -> m <= N -> bound m <= bound N.
Proof.
  induction N as [N IH] using (well_founded_induction lt_wf). intros m H1 H2. destruct (le_lt_dec N 12) as [S|S].
  - assert (D : N = 7 \/ N = 8 \/ N = 9 \/ N = 10 \/ N = 11 \/ N = 12) by lia.
    assert (C : forallb (fun N => forallb (fun m => Nat.leb (bound m) (bound N)) (seq 0 (N + 1))) [7; 8; 9; 10; 11; 12] = true) by (vm_compute; reflexivity).
    rewrite forallb_forall in C. assert (I : In N [7; 8; 9; 10; 11; 12]) by (simpl; lia). specialize (C N I). rewrite forallb_forall in C. apply Nat.leb_le, C, in_seq. lia.
  - assert (E : N = (N - 6) + 6) by lia. rewrite E, bound_6 by lia. destruct (le_lt_dec m 12) as [M|M].
    + assert (X : bound 7 <= bound (N - 6)) by (apply IH; lia). assert (Y : bound m <= bound 12).
      { assert (C : forallb (fun m => Nat.leb (bound m) (bound 12)) (seq 0 13) = true) by (vm_compute; reflexivity). rewrite forallb_forall in C. apply Nat.leb_le, C, in_seq. lia. }
      assert (B7 : bound 7 = 14) by (vm_compute; reflexivity). assert (B12 : bound 12 = 56) by (vm_compute; reflexivity). lia.
    + replace m with ((m - 6) + 6) by lia. rewrite bound_6 by lia. assert (bound (m - 6) <= bound (N - 6)) by (apply IH; lia). lia.
Qed.
Lemma bound_step : forall n m, n <> 0 -> m + kof n <= n -> step_bound n * bound m <= bound n.
Proof.
  intros n m N H. destruct (le_lt_dec n 12) as [S|S].
  - assert (C : forallb (fun n => forallb (fun m => Nat.leb (step_bound n * bound m) (bound n)) (seq 0 (n - kof n + 1))) (seq 1 12) = true) by (vm_compute; reflexivity).
    rewrite forallb_forall in C. assert (I : In n (seq 1 12)) by (apply in_seq; lia). specialize (C n I). rewrite forallb_forall in C. apply Nat.leb_le, C, in_seq. lia.
  - unfold step_bound, kof in *. rewrite (proj2 (Nat.leb_le 6 n)) in * by lia. assert (E : bound n = 7 * bound (n - 6)) by (rewrite <- bound_6 by lia; f_equal; lia). rewrite E.
    assert (bound m <= bound (n - 6)) by (apply bound_mono; lia). lia.
Qed.

(** ** The decomposition *)
Scheme fs_ind := Induction for find_stab Sort Prop with fl_ind := Induction for find_stabs Sort Prop.
Combined Scheme fs_mut from fs_ind, fl_ind.
Definition stab_term (ni no : nat) (t : graph) : Prop := sdiag t /\ tcount_r t = Ok 0 /\ length (ginputs t) = ni /\ length (goutputs t) = no.
Lemma total_app : forall a b i y, total (a ++ b) i y = (total a i y + total b i y)%C.
Proof. intros a b i y. unfold total. rewrite map_app. induction (map (fun h => val h i y) a) as [|x l IH]; cbn [app csum fold_right]; [unfold csum; ring|]. unfold csum in *. rewrite IH. ring. Qed.
Theorem find_stab_ok :
  (forall g r, find_stab g r -> sdiag g -> r = Some (Err KeyError) \/ exists ts, r = Some (Ok ts) /\ Forall (stab_term (length (ginputs g)) (length (goutputs g))) ts /\
    (forall i y, total ts i y = val g i y) /\ length ts <= bound (tcount g)) /\
  (forall hs r, find_stabs hs r -> forall n ni no, Forall (fun h => sdiag h /\ bound (tcount h) <= n /\ length (ginputs h) = ni /\ length (goutputs h) = no) hs ->
    r = Some (Err KeyError) \/ exists ts, r = Some (Ok ts) /\ Forall (stab_term ni no) ts /\ (forall i y, total ts i y = total hs i y) /\ length ts <= length hs * n).
Proof.
  apply fs_mut.
  - intros g e T S. rewrite sdiag_count in T by auto. discriminate.
  - intros g T S. right. exists [g]. split; auto. split; [constructor; [split; auto|constructor]|]. split; [intros; unfold total; cbn; ring|].
    rewrite sdiag_count in T by auto. injection T as ->. cbn. lia.
  - intros g n T R S. rewrite sdiag_count in T by auto. injection T as T. destruct (magic_sound true g _ (proj1 S) (proj1 (proj2 (proj2 S))) (sdiag_tz g S) R) as [[E _]|[hs [_ [E _]]]]; [lia|discriminate].
  - intros g n e T R S. destruct (magic_sound true g _ (proj1 S) (proj1 (proj2 (proj2 S))) (sdiag_tz g S) R) as [[_ E]|[hs [_ [E _]]]]; discriminate.
  - intros g n hs e T R SR S. destruct (magic_sound true g _ (proj1 S) (proj1 (proj2 (proj2 S))) (sdiag_tz g S) R) as [[_ E]|[hs' [N [E [L [H V]]]]]]; [discriminate|]. injection E as <-.
    destruct (sum_reduce_sdiag hs _ (tcount g) SR) as [E|[ts [E _]]]; [|left; congruence|discriminate].
    apply Forall_forall. intros h Hh. destruct (H h Hh) as [ZH [IO [_ [_ [K [Q X]]]]]]. split; [|lia]. split; auto. split; [|split; auto; apply Q, S].
    intros v Hv E. destruct (X (sdiag_types g S) v Hv); congruence.
  - intros g n hs ts r T R SR FL IH S. destruct (magic_sound true g _ (proj1 S) (proj1 (proj2 (proj2 S))) (sdiag_tz g S) R) as [[_ E]|[hs' [N [E [L [H V]]]]]]; [discriminate|]. injection E as <-.
    assert (SD : forall h, In h hs -> sdiag h).
    { intros h Hh. destruct (H h Hh) as [ZH [IO [_ [_ [K [Q X]]]]]]. split; auto. split; [|split; auto; apply Q, S]. intros v Hv E. destruct (X (sdiag_types g S) v Hv); congruence. }
    destruct (sum_reduce_sdiag hs _ (tcount g - kof (tcount g)) SR) as [E|[ts' [E [L' [F V']]]]]; [|discriminate|].
    { apply Forall_forall. intros h Hh. split; auto. destruct (H h Hh) as [_ [_ [_ [_ [K _]]]]]. lia. }
    injection E as <-. destruct (kof_le _ N) as [K1 _].
    assert (PB : 0 < step_bound (tcount g)) by (unfold step_bound; destruct (Nat.leb 6 (tcount g)); lia).
    destruct (IH (bound (tcount g) / step_bound (tcount g)) (length (ginputs g)) (length (goutputs g))) as [E|[l [E [F2 [V2 L2]]]]]; [|left; auto|right].
    + eapply Forall_impl; [|exact F]. intros h [[Sh Th] [g0 [Ig [EI EO]]]]. split; auto. destruct (H g0 Ig) as [_ [_ [LI [LO _]]]]. rewrite EI, EO. split; [|auto].
      apply Nat.div_le_lower_bound; [lia|]. apply bound_step; auto. lia.
    + exists l. split; auto. split; auto. split; [intros i y; rewrite V2, V'; apply V|]. eapply Nat.le_trans; [exact L2|]. fold (step_bound (tcount g)) in L.
      assert (length ts <= step_bound (tcount g)) by lia. eapply Nat.le_trans; [apply Nat.mul_le_mono_r; eassumption|]. apply Nat.mul_div_le. lia.
  - intros n ni no _. right. exists []. repeat split; auto.
  - intros h ts r Z FL IH n ni no F. assert (F0 := Forall_inv F). apply Forall_inv_tail in F. destruct (IH n ni no F) as [E|[l [E [F2 [V2 L2]]]]]; [left; auto|right]. exists l. split; auto. split; auto. split; [|cbn; lia].
    intros i y. rewrite V2. unfold total. cbn [map csum fold_right]. rewrite is_zero_val by auto. unfold csum. ring.
  - intros h ts Z FS IH n ni no F. destruct (IH (proj1 (Forall_inv F))) as [E|[l [E _]]]; discriminate.
  - intros h ts e Z FS IH n ni no F. destruct (IH (proj1 (Forall_inv F))) as [E|[l [E _]]]; [left; auto|discriminate].
  - intros h ts l l' Z FS IH FL IL n ni no F. destruct (Forall_inv F) as [S [B [LI LO]]]. apply Forall_inv_tail in F. destruct (IH S) as [E|[l0 [E [F1 [V1 L1]]]]]; [discriminate|]. injection E as <-.
    destruct (IL n ni no F) as [E|[l0 [E [F2 [V2 L2]]]]]; [discriminate|]. injection E as <-. right. exists (l ++ l'). split; auto. rewrite LI, LO in F1. split; [apply Forall_app; auto|].
    split; [intros i y; rewrite total_app, V1, V2; reflexivity|]. rewrite app_length. cbn [length]. lia.
  - intros h ts l Z FS IH FL IL n ni no F. destruct (IL n ni no (Forall_inv_tail F)) as [E|[l0 [E _]]]; discriminate.
  - intros h ts l e Z FS IH FL IL n ni no F. destruct (IL n ni no (Forall_inv_tail F)) as [E|[l0 [E _]]]; [left; auto|discriminate].
Qed.
Theorem find_stab_sum : forall g r, sdiag g -> find_stab g r ->
  r = Some (Err KeyError) \/ exists ts, r = Some (Ok ts) /\
    (forall t, In t ts -> sdiag t /\ tcount_r t = Ok 0 /\ length (ginputs t) = length (ginputs g) /\ length (goutputs t) = length (goutputs g)) /\
    forall i y, csum (map (fun t => val t i y) ts) = val g i y.
Proof.
  intros g r S F. destruct (proj1 find_stab_ok g r F S) as [E|[ts [E [T [V _]]]]]; auto. right. exists ts. split; auto. split; auto. rewrite Forall_forall in T. exact T.
Qed.
Theorem find_stab_bound : forall g ts n m, sdiag g -> find_stab g (Some (Ok ts)) -> tcount_r g = Ok n -> max_terms_needed g = Ok m -> (n mod 6 <> 0 \/ n < 12) -> length ts <= m.
Proof.
  intros g ts n m S F T M H. destruct (proj1 find_stab_ok g _ F S) as [E|[ts' [E [_ [_ L]]]]]; [discriminate|]. injection E as <-. unfold max_terms_needed in M. rewrite T in M. cbn [bind] in M. injection M as <-.
  rewrite sdiag_count in T by auto. injection T as T. rewrite T in L. unfold bound in L. destruct (Nat.leb_spec 12 n); [|exact L]. destruct (Nat.eqb_spec (n mod 6) 0); [lia|exact L].
Qed.
Theorem find_stab_bound_six : forall g ts k, sdiag g -> find_stab g (Some (Ok ts)) -> 2 <= k -> tcount_r g = Ok (6 * k) -> length ts <= 8 * 7 ^ (k - 1).
Proof.
  intros g ts k S F K T. destruct (proj1 find_stab_ok g _ F S) as [E|[ts' [E [_ [_ L]]]]]; [discriminate|]. injection E as <-.
  rewrite sdiag_count in T by auto. injection T as T. rewrite T in L. unfold bound in L. rewrite (proj2 (Nat.leb_le 12 _)) in L by lia.
  replace (k + (k + (k + (k + (k + (k + 0)))))) with (k * 6) in L by lia. rewrite Nat.mod_mul, Nat.div_mul in L by lia. exact L.
Qed.

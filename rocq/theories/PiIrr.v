(** The number pi is irrational (Niven's argument), so that the cosine of a
    rational number is never zero. *)
From Coq Require Import Reals ZArith QArith Qcanon Qreals List Lia Lra.
Import ListNotations.
Open Scope R_scope.

Fixpoint ev (l : list Z) (x : R) : R := match l with [] => 0 | c :: l => IZR c + x * ev l x end.
Fixpoint padd (l m : list Z) : list Z :=
  match l, m with [], _ => m | _, [] => l | a :: l, b :: m => (a + b)%Z :: padd l m end.
Fixpoint dif (l : list Z) : list Z := match l with [] => [] | c :: l => padd l (0%Z :: dif l) end.
Fixpoint difn (j : nat) (l : list Z) : list Z := match j with O => l | S j => dif (difn j l) end.

Lemma ev_padd : forall l m x, ev (padd l m) x = ev l x + ev m x.
Proof.
  induction l as [|a l IH]; intros [|b m] x; simpl; try ring. rewrite IH, plus_IZR. ring.
Qed.
Lemma nth_padd : forall l m k, nth k (padd l m) 0%Z = (nth k l 0 + nth k m 0)%Z.
Proof.
  induction l as [|a l IH]; intros [|b m] [|k]; simpl; auto; try lia; try apply IH.
Qed.
Lemma nth_dif : forall l k, nth k (dif l) 0%Z = (Z.of_nat (k + 1) * nth (k + 1) l 0)%Z.
Proof.
  induction l as [|c l IH]; intros k; cbn [dif].
  - rewrite !nth_overflow by (simpl; lia). lia.
  - rewrite nth_padd. replace (nth (k + 1) (c :: l) 0%Z) with (nth k l 0%Z) by (rewrite Nat.add_1_r; reflexivity).
    destruct k as [|k].
    + cbn [nth]. lia.
    + change (nth (S k) (0%Z :: dif l) 0%Z) with (nth k (dif l) 0%Z). rewrite IH, Nat.add_1_r. nia.
Qed.
Lemma nth_difn : forall j l k, (Z.of_nat (fact k) * nth k (difn j l) 0 = Z.of_nat (fact (k + j)) * nth (k + j) l 0)%Z.
Proof.
  induction j as [|j IH]; intros l k.
  - rewrite Nat.add_0_r. reflexivity.
  - cbn [difn]. rewrite nth_dif.
    replace (Z.of_nat (fact k) * (Z.of_nat (k + 1) * nth (k + 1) (difn j l) 0))%Z
      with (Z.of_nat (fact (k + 1)) * nth (k + 1) (difn j l) 0)%Z
      by (rewrite Nat.add_1_r; cbn [fact]; rewrite <- Nat.add_1_r; nia).
    rewrite IH. replace (k + 1 + j)%nat with (k + S j)%nat by lia. reflexivity.
Qed.
Lemma ev_zero : forall l, (forall k, nth k l 0%Z = 0%Z) -> forall x, ev l x = 0.
Proof.
  induction l as [|c l IH]; intros H x; simpl; auto. rewrite IH by (intros k; apply (H (S k))).
  specialize (H O). simpl in H. subst. ring.
Qed.
Lemma ev_0 : forall l, ev l 0 = IZR (nth 0 l 0%Z).
Proof. intros [|c l]; simpl; ring. Qed.
Lemma difn_vanish : forall j l x, (length l <= j)%nat -> ev (difn j l) x = 0.
Proof.
  intros j l x H. apply ev_zero. intros k. assert (E := nth_difn j l k).
  rewrite (nth_overflow l) in E by lia. assert (F := lt_O_fact k). nia.
Qed.
Lemma ev_deriv : forall l x, derivable_pt_lim (ev l) x (ev (dif l) x).
Proof.
  induction l as [|c l IH]; intros x.
  - simpl. apply derivable_pt_lim_const.
  - cbn [dif]. rewrite ev_padd. simpl.
    replace (ev l x + (0 + x * ev (dif l) x)) with (0 + (1 * ev l x + x * ev (dif l) x)) by ring.
    apply (derivable_pt_lim_plus (fun _ => IZR c) (fun x => x * ev l x)); [apply derivable_pt_lim_const|].
    apply (derivable_pt_lim_mult (fun x => x) (ev l)); [apply derivable_pt_lim_id|apply IH].
Qed.

(** the polynomial x^n (a - b x)^n *)
Definition scale (c : Z) (l : list Z) : list Z := map (Z.mul c) l.
Definition pstep (a b : Z) (l : list Z) : list Z := padd (scale a l) (0%Z :: scale (- b) l).
Fixpoint ppow (a b : Z) (n : nat) : list Z := match n with O => [1%Z] | S n => pstep a b (ppow a b n) end.
Definition fpoly (a b : Z) (n : nat) : list Z := repeat 0%Z n ++ ppow a b n.
Lemma ev_scale : forall c l x, ev (scale c l) x = IZR c * ev l x.
Proof. induction l; intros; simpl; [ring|]. rewrite IHl, mult_IZR. ring. Qed.
Lemma ev_ppow : forall a b n x, ev (ppow a b n) x = (IZR a - IZR b * x) ^ n.
Proof.
  induction n; intros x; simpl; [ring|]. unfold pstep. rewrite ev_padd. simpl. rewrite !ev_scale, IHn, opp_IZR. ring.
Qed.
Lemma ev_fpoly : forall a b n x, ev (fpoly a b n) x = x ^ n * (IZR a - IZR b * x) ^ n.
Proof.
  intros a b n x. rewrite <- ev_ppow. unfold fpoly. generalize (ppow a b n) as q.
  induction n; intros q; simpl; [ring|]. rewrite IHn. ring.
Qed.
Lemma nth_fpoly : forall a b n k, (k < n)%nat -> nth k (fpoly a b n) 0%Z = 0%Z.
Proof.
  intros. unfold fpoly. rewrite app_nth1 by (rewrite repeat_length; auto). apply nth_repeat.
Qed.
Lemma fact_div : forall n j, (n <= j)%nat -> exists z, Z.of_nat (fact j) = (Z.of_nat (fact n) * z)%Z.
Proof.
  intros n j H. induction H as [|j H [z IH]]; [exists 1%Z; lia|].
  exists (z * Z.of_nat (S j))%Z. cbn [fact]. rewrite <- Nat.add_1_r. nia.
Qed.
Lemma difn_fpoly_0 : forall a b n j, exists z, ev (difn j (fpoly a b n)) 0 = INR (fact n) * IZR z.
Proof.
  intros a b n j. rewrite ev_0. assert (E := nth_difn j (fpoly a b n) 0). cbn [fact plus] in E.
  change (Z.of_nat 1) with 1%Z in E. rewrite Z.mul_1_l in E. rewrite E.
  destruct (Nat.lt_ge_cases j n) as [L|L].
  - rewrite nth_fpoly by auto. exists 0%Z. rewrite Z.mul_0_r. ring.
  - destruct (fact_div n j L) as [z Hz]. exists (z * nth j (fpoly a b n) 0)%Z.
    rewrite Hz, INR_IZR_INZ, <- mult_IZR. f_equal. ring.
Qed.

Section Niven.
  Variables (a b : Z).
  Hypothesis Hb : IZR b <> 0.
  Hypothesis Hpi : PI = IZR a / IZR b.
  Variable n : nat.
  Let f := fpoly a b n.
  Let N := length f.

  Lemma f_refl : forall x, ev f (PI - x) = ev f x.
  Proof.
    intros x. unfold f. rewrite !ev_fpoly. rewrite <- !Rpow_mult_distr. f_equal.
    rewrite Hpi. field. auto.
  Qed.
  Lemma difn_refl : forall j x, ev (difn j f) (PI - x) = (-1) ^ j * ev (difn j f) x.
  Proof.
    induction j; intros x; [simpl; rewrite f_refl; ring|].
    assert (D1 : derivable_pt_lim (fun y => ev (difn j f) (PI - y)) x (ev (dif (difn j f)) (PI - x) * (0 - 1))).
    { apply (derivable_pt_lim_comp (fun y => PI - y) (ev (difn j f))).
      - apply (derivable_pt_lim_minus (fun _ => PI) (fun y => y)); [apply derivable_pt_lim_const|apply derivable_pt_lim_id].
      - apply ev_deriv. }
    assert (D2 : derivable_pt_lim (fun y => ev (difn j f) (PI - y)) x ((-1) ^ j * ev (dif (difn j f)) x)).
    { assert (D3 : derivable_pt_lim (mult_real_fct ((-1)^j) (ev (difn j f))) x ((-1) ^ j * ev (dif (difn j f)) x)) by (apply derivable_pt_lim_scal, ev_deriv).
      intros eps He. destruct (D3 eps He) as [d Hd]. exists d. intros h H1 H2. rewrite !IHj. apply Hd; auto. }
    assert (E := uniqueness_limite _ _ _ _ D1 D2). cbn [difn]. simpl pow. lra.
  Qed.

  (** F = f - f'' + f'''' - ... *)
  Fixpoint Fs (m : nat) (x : R) : R := match m with O => 0 | S m => Fs m x + (-1) ^ m * ev (difn (2 * m) f) x end.
  Fixpoint Fs1 (m : nat) (x : R) : R := match m with O => 0 | S m => Fs1 m x + (-1) ^ m * ev (difn (2 * m + 1) f) x end.
  Fixpoint Fs2 (m : nat) (x : R) : R := match m with O => 0 | S m => Fs2 m x + (-1) ^ m * ev (difn (2 * m + 2) f) x end.
  Lemma Fs_d : forall m x, derivable_pt_lim (Fs m) x (Fs1 m x).
  Proof.
    induction m; intros x; simpl Fs1; [apply derivable_pt_lim_const|].
    apply (derivable_pt_lim_plus (Fs m) (fun x => (-1) ^ m * ev (difn (2 * m) f) x)); auto.
    apply (derivable_pt_lim_scal (ev (difn (2 * m) f))). replace (m + (m + 0) + 1)%nat with (S (2 * m)) by lia. apply ev_deriv.
  Qed.
  Lemma Fs1_d : forall m x, derivable_pt_lim (Fs1 m) x (Fs2 m x).
  Proof.
    induction m; intros x; simpl Fs2; [apply derivable_pt_lim_const|].
    apply (derivable_pt_lim_plus (Fs1 m) (fun x => (-1) ^ m * ev (difn (2 * m + 1) f) x)); auto.
    apply (derivable_pt_lim_scal (ev (difn (2 * m + 1) f))). replace (m + (m + 0) + 2)%nat with (S (2 * m + 1)) by lia. apply ev_deriv.
  Qed.
  Lemma Fs_tel : forall m x, Fs2 m x + Fs m x = ev f x - (-1) ^ m * ev (difn (2 * m) f) x.
  Proof.
    induction m; intros x; [simpl; ring|].
    replace (Fs2 (S m) x) with (Fs2 m x + (-1) ^ m * ev (difn (2 * m + 2) f) x) by reflexivity.
    replace (Fs (S m) x) with (Fs m x + (-1) ^ m * ev (difn (2 * m) f) x) by reflexivity.
    replace (2 * S m)%nat with (2 * m + 2)%nat by lia. simpl pow. specialize (IHm x). lra.
  Qed.
  Lemma Fs_int : forall m, exists z, Fs m 0 = INR (fact n) * IZR z.
  Proof.
    induction m as [|m [z IH]]; [exists 0%Z; simpl; ring|].
    destruct (difn_fpoly_0 a b n (2 * m)) as [w Hw]. exists (z + (-1) ^ Z.of_nat m * w)%Z.
    replace (Fs (S m) 0) with (Fs m 0 + (-1) ^ m * ev (difn (2 * m) f) 0) by reflexivity.
    unfold f. rewrite Hw, IH, plus_IZR, mult_IZR, <- pow_IZR. ring.
  Qed.
  Lemma Fs_refl : forall m x, Fs m (PI - x) = Fs m x.
  Proof.
    induction m; intros x; simpl Fs; auto. rewrite IHm. f_equal. f_equal.
    replace (m + (m + 0))%nat with (2 * m)%nat by lia. rewrite difn_refl, pow_1_even. ring.
  Qed.

  Lemma niven : exists z c, 0 < c < PI /\ INR (fact n) * IZR z = PI * (ev f c * sin c).
  Proof.
    set (F := Fs N). set (F1 := Fs1 N). set (F2 := Fs2 N).
    destruct (MVT_cor2 (fun x => F1 x * sin x - F x * cos x) (fun x => ev f x * sin x) 0 PI PI_RGT_0) as [c [Hc1 Hc2]].
    - intros x _.
      replace (ev f x * sin x) with ((F2 x * sin x + F1 x * cos x) - (F1 x * cos x + F x * (- sin x))).
      + apply (derivable_pt_lim_minus (fun x => F1 x * sin x) (fun x => F x * cos x)).
        * apply (derivable_pt_lim_mult F1 sin); [apply Fs1_d|apply derivable_pt_lim_sin].
        * apply (derivable_pt_lim_mult F cos); [apply Fs_d|apply derivable_pt_lim_cos].
      + assert (T := Fs_tel N x). rewrite difn_vanish in T by (unfold N; lia). unfold F, F2. 
        replace (ev f x) with (Fs2 N x + Fs N x) by lra. ring.
    - rewrite sin_PI, cos_PI, sin_0, cos_0 in Hc1.
      assert (R : F PI = F 0) by (assert (X := Fs_refl N 0); rewrite Rminus_0_r in X; exact X).
      destruct (Fs_int N) as [z Hz]. exists (2 * z)%Z, c. split; [lra|]. rewrite mult_IZR.
      fold F in Hz. rewrite R, Hz in Hc1. lra.
  Qed.
End Niven.

Lemma fpoly_bound : forall a b n c, 0 < IZR b -> PI = IZR a / IZR b -> 0 < c < PI ->
  0 < ev (fpoly a b n) c /\ ev (fpoly a b n) c <= (PI * IZR a) ^ n.
Proof.
  intros a b n c Hb Hpi Hc. rewrite ev_fpoly, <- Rpow_mult_distr.
  assert (A : IZR a = IZR b * PI) by (rewrite Hpi; field; lra).
  assert (B : 0 < IZR a - IZR b * c).
  { rewrite A. replace (IZR b * PI - IZR b * c) with (IZR b * (PI - c)) by ring. apply Rmult_lt_0_compat; lra. }
  assert (B2 : IZR a - IZR b * c <= IZR a). { assert (0 < IZR b * c) by (apply Rmult_lt_0_compat; lra). lra. }
  split.
  - apply pow_lt. apply Rmult_lt_0_compat; lra.
  - apply pow_incr. split; [apply Rmult_le_pos; lra|]. apply Rmult_le_compat; lra.
Qed.

Theorem pi_irrational : forall a b : Z, IZR b <> 0 -> PI <> IZR a / IZR b.
Proof.
  assert (X : forall a b : Z, 0 < IZR b -> PI <> IZR a / IZR b).
  { intros a b Hb Hpi. assert (P := PI_RGT_0).
    assert (CV := cv_speed_pow_fact (PI * IZR a)).
    destruct (CV (/ PI) (Rinv_0_lt_compat _ P)) as [n Hn]. specialize (Hn n (le_n n)). unfold R_dist in Hn. rewrite Rminus_0_r in Hn.
    destruct (niven a b ltac:(lra) Hpi n) as [z [c [Hc E]]].
    destruct (fpoly_bound a b n c Hb Hpi Hc) as [B1 B2].
    assert (S1 : 0 < sin c) by (apply sin_gt_0; lra). assert (S2 : sin c <= 1) by (apply SIN_bound).
    assert (Fp : 0 < INR (fact n)) by (apply lt_0_INR, lt_O_fact).
    assert (Q : (PI * IZR a) ^ n < INR (fact n) / PI).
    { assert (Z0 : 0 <= (PI * IZR a) ^ n / INR (fact n)).
      { apply Rmult_le_pos; [lra|]. left. apply Rinv_0_lt_compat; auto. }
      rewrite Rabs_right in Hn by lra. apply (Rmult_lt_compat_r (INR (fact n))) in Hn; auto.
      unfold Rdiv in Hn. rewrite Rmult_assoc, Rinv_l, Rmult_1_r in Hn by lra. unfold Rdiv. lra. }
    assert (L : 0 < INR (fact n) * IZR z < INR (fact n) * 1).
    { rewrite E. split; [apply Rmult_lt_0_compat; [exact P|apply Rmult_lt_0_compat; assumption]|].
      apply Rle_lt_trans with (PI * ((PI * IZR a) ^ n * 1)).
      - apply Rmult_le_compat_l; [lra|]. apply Rmult_le_compat; lra.
      - apply (Rmult_lt_compat_l PI) in Q; auto. replace (PI * (INR (fact n) / PI)) with (INR (fact n)) in Q by (field; lra). lra. }
    destruct L as [L1 L2]. apply Rmult_lt_reg_l in L2; auto.
    assert (L3 : 0 < IZR z). { apply (Rmult_lt_reg_l (INR (fact n))); auto. lra. }
    apply lt_IZR in L2. apply lt_IZR in L3. lia. }
  intros a b Hb E. destruct (Rlt_or_le 0 (IZR b)) as [L|L]; [exact (X a b L E)|].
  apply (X (- a)%Z (- b)%Z); rewrite ?opp_IZR; [lra|]. rewrite E. field. auto.
Qed.

Theorem cos_rational : forall q : Q, cos (Q2R q) <> 0.
Proof.
  intros q H. apply cos_eq_0_0 in H. destruct H as [k Hk].
  assert (P : PI * (IZR (2 * k + 1)) = 2 * Q2R q) by (rewrite plus_IZR, mult_IZR; lra).
  assert (N : IZR (2 * k + 1) <> 0) by (apply IZR_neq; lia).
  destruct q as [p d]. unfold Q2R in P. cbn [Qnum Qden] in P.
  assert (D : IZR (Zpos d) <> 0) by (apply IZR_neq; lia).
  apply (pi_irrational (2 * p) (Zpos d * (2 * k + 1))).
  - rewrite mult_IZR. apply Rmult_integral_contrapositive; auto.
  - rewrite !mult_IZR. apply (Rmult_eq_reg_r (IZR (2 * k + 1))); auto. rewrite P. field. auto.
Qed.

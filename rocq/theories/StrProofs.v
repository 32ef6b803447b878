(** Printed phases parse back. *)
From Coq Require Import ZArith NArith QArith Qcanon List Bool Decimal DecimalPos DecimalZ Lia.
From Verif Require Import CNum Base ScalarModel ScalarProofs GraphModel GraphProofs StrModel.
Import ListNotations.
Open Scope N_scope.

Lemma chars_back : forall u, chars_uint (uint_chars u) = Some u.
Proof. induction u; cbn [uint_chars chars_uint]; try rewrite IHu; reflexivity. Qed.
Definition digit (c : N) : Prop := 48 <= c <= 57.
Lemma uint_digits : forall u c, In c (uint_chars u) -> digit c.
Proof. induction u; cbn [uint_chars]; intros c H; try (destruct H as [<-|H]; [unfold digit; lia|apply IHu; exact H]). destruct H. Qed.
Definition plain (c : N) : Prop := c = c_minus \/ c = c_slash \/ digit c.
Lemma to_int_ok : forall z, exists u, u <> Decimal.Nil /\ (Z.to_int z = Decimal.Pos u \/ Z.to_int z = Decimal.Neg u).
Proof.
  intros [|p|p].
  - exists (D0 Decimal.Nil). split; [discriminate|]. left. reflexivity.
  - exists (Pos.to_uint p). split; [apply Unsigned.to_uint_nonnil|]. left. reflexivity.
  - exists (Pos.to_uint p). split; [apply Unsigned.to_uint_nonnil|]. right. reflexivity.
Qed.
Lemma uint_nonempty : forall u, u <> Decimal.Nil -> exists c s, uint_chars u = c :: s /\ digit c.
Proof. intros u H. destruct u; [congruence|..]; cbn [uint_chars]; eexists; eexists; (split; [reflexivity|unfold digit; lia]). Qed.
Lemma str_of_Z_chars : forall z c, In c (str_of_Z z) -> c = c_minus \/ digit c.
Proof.
  intros z c H. unfold str_of_Z in H. destruct (Z.to_int z) as [u|u]; [right; eapply uint_digits; exact H|]. destruct H as [<-|H]; [auto|]. right. eapply uint_digits; exact H.
Qed.
Lemma int_back : forall z, int_of (str_of_Z z) = Some z.
Proof.
  intros z. rewrite <- (DecimalZ.of_to z) at 2. unfold str_of_Z. destruct (to_int_ok z) as [u [N [E|E]]]; rewrite E; destruct (uint_nonempty u N) as [c [s [Ec D]]].
  - unfold int_of. rewrite Ec. replace (c =? c_minus) with false by (symmetry; apply N.eqb_neq; unfold c_minus, digit in *; lia). replace (c =? c_plus) with false by (symmetry; apply N.eqb_neq; unfold c_plus, digit in *; lia).
    unfold digits_of. rewrite <- Ec, chars_back. reflexivity.
  - unfold int_of. rewrite N.eqb_refl. unfold digits_of. rewrite Ec. rewrite <- Ec, chars_back. reflexivity.
Qed.
Lemma str_of_Z_head : forall z, exists c s, str_of_Z z = c :: s /\ (c = c_minus \/ digit c) /\ (c = c_minus -> s <> []).
Proof.
  intros z. unfold str_of_Z. destruct (to_int_ok z) as [u [N [E|E]]]; rewrite E; destruct (uint_nonempty u N) as [c [s [Ec D]]]; rewrite Ec.
  - exists c, s. split; [reflexivity|]. split; [auto|]. unfold c_minus, digit in *. lia.
  - exists c_minus, (c :: s). split; [reflexivity|]. split; [auto|]. discriminate.
Qed.

Lemma lower_plain : forall c, plain c -> lower c = c /\ c <> c_space /\ c <> c_pi /\ c <> c_p /\ c <> c_back /\ c <> c_dot /\ c <> c_e.
Proof.
  intros c H. assert (B : 45 <= c <= 57 /\ c <> 46) by (unfold plain, digit, c_minus, c_slash in H; lia).
  split; [|unfold c_space, c_pi, c_p, c_back, c_dot, c_e; lia]. unfold lower. replace (65 <=? c) with false by (symmetry; apply N.leb_gt; lia). cbn [andb]. replace (c =? 928) with false by (symmetry; apply N.eqb_neq; lia). reflexivity.
Qed.
Lemma drop_pi_plain : forall c s, plain c -> drop_pi (c :: s) = c :: drop_pi s.
Proof.
  intros c s P. destruct (lower_plain c P) as [_ [_ [H1 [H2 [H3 _]]]]]. apply N.eqb_neq in H1, H2, H3. cbn [drop_pi]. rewrite H1, H2, H3. cbn [andb]. destruct s as [|d [|e s]]; reflexivity.
Qed.
Definition clean (s : str) : str := drop_pi (filter (fun c => negb (N.eqb c c_space)) (map lower s)).
Lemma clean_plain : forall s t, (forall c, In c s -> plain c) -> clean (s ++ t) = s ++ clean t.
Proof.
  unfold clean. induction s as [|c s IH]; intros t H; [reflexivity|]. rewrite <- !app_comm_cons. cbn [map filter]. destruct (lower_plain c (H c (or_introl eq_refl))) as [L [S _]]. rewrite L. apply N.eqb_neq in S. rewrite S. cbn [negb].
  rewrite drop_pi_plain by (apply H; left; reflexivity). f_equal. apply IH. intros d D. apply H. right. exact D.
Qed.
Lemma clean_pi : forall t, clean (c_pi :: t) = clean t.
Proof. intros t. unfold clean. cbn [map filter]. change (lower c_pi) with c_pi. change (negb (c_pi =? c_space)) with true. cbn iota. cbn [drop_pi]. rewrite N.eqb_refl. reflexivity. Qed.
Lemma clean_all : forall s, (forall c, In c s -> plain c) -> clean s = s.
Proof. intros s H. rewrite <- (app_nil_r s) at 1. rewrite clean_plain by exact H. apply app_nil_r. Qed.
Lemma cmem_false : forall c s, ~ In c s -> cmem c s = false.
Proof. intros c s H. unfold cmem. destruct (existsb (N.eqb c) s) eqn:E; [|reflexivity]. apply existsb_exists in E. destruct E as [d [I D]]. apply N.eqb_eq in D. subst d. contradiction. Qed.
Lemma split_ok : forall s t, ~ In c_slash s -> split_slash (s ++ c_slash :: t) = (s, Some t).
Proof.
  induction s as [|c s IH]; intros t H; [reflexivity|rewrite <- app_comm_cons; cbn [split_slash]].
  replace (c =? c_slash) with false by (symmetry; apply N.eqb_neq; intros ->; apply H; left; reflexivity). rewrite IH by (intros I; apply H; right; exact I). reflexivity.
Qed.
Lemma no_slash : forall z, ~ In c_slash (str_of_Z z).
Proof. intros z H. apply str_of_Z_chars in H. unfold digit, c_slash, c_minus in H. lia. Qed.
Lemma plain_Z : forall z c, In c (str_of_Z z) -> plain c.
Proof. intros z c H. unfold plain. destruct (str_of_Z_chars z c H); auto. Qed.
Lemma frac_back : forall q, (Qcz (qnum q) / Qcz (qden q))%Qc = q.
Proof.
  intros q. apply Qc_is_canon. unfold Qcdiv, Qcmult, Qcinv, Q2Qc. cbn [this]. etransitivity; [apply Qred_correct|]. rewrite Qred_correct, !this_Qcz. unfold qnum, qden. destruct (this q) as [n d]. cbn [Qnum Qden].
  unfold Qeq, Qmult, Qinv, inject_Z. simpl. lia.
Qed.
Lemma qden_pos : forall q, (0 < qden q)%Z.
Proof. intros q. unfold qden. reflexivity. Qed.
Lemma num_zero : forall q, qnum q = 0%Z -> q = 0%Qc.
Proof. intros q H. rewrite <- (frac_back q), H. unfold Qcdiv. change (Qcz 0) with 0%Qc. ring. Qed.

(** the parser on what the printer makes of a fraction *)
Definition printed (a : Qc) : str := (if Z.eqb (qnum a) 1 then [] else str_of_Z (qnum a)) ++ c_pi :: (if Z.eqb (qden a) 1 then [] else c_slash :: str_of_Z (qden a)).
Lemma parse_printed : forall a, string_to_phase (printed a) = Ok (Some a).
Proof.
  intros a. set (ns := if Z.eqb (qnum a) 1 then [] else str_of_Z (qnum a)). set (ds := if Z.eqb (qden a) 1 then [] else c_slash :: str_of_Z (qden a)).
  assert (P1 : forall c, In c ns -> plain c). { subst ns. destruct (qnum a =? 1)%Z; [intros c []|apply plain_Z]. }
  assert (P2 : forall c, In c ds -> plain c). { subst ds. destruct (qden a =? 1)%Z; [intros c []|]. intros c [<-|H]; [right; left; reflexivity|eapply plain_Z; exact H]. }
  assert (C : clean (printed a) = ns ++ ds). { unfold printed. fold ns ds. rewrite clean_plain by exact P1. rewrite clean_pi, clean_all by exact P2. reflexivity. }
  assert (P : forall c, In c (ns ++ ds) -> plain c) by (intros c H; apply in_app_iff in H; destruct H; auto).
  assert (Q1 : cmem c_dot (ns ++ ds) = false) by (apply cmem_false; intros H; destruct (lower_plain _ (P _ H)) as [_ [_ [_ [_ [_ [X _]]]]]]; congruence).
  assert (Q2 : cmem c_e (ns ++ ds) = false) by (apply cmem_false; intros H; destruct (lower_plain _ (P _ H)) as [_ [_ [_ [_ [_ [_ X]]]]]]; congruence).
  unfold string_to_phase. assert (NE : exists c s, printed a = c :: s) by (unfold printed; destruct (if (qnum a =? 1)%Z then [] else str_of_Z (qnum a)); simpl; eauto).
  destruct NE as [c0 [s0 E0]]. rewrite E0. rewrite <- E0. change (drop_pi (filter (fun c => negb (c =? c_space)) (map lower (printed a)))) with (clean (printed a)). cbv zeta. rewrite C. clear E0 c0 s0 C.
  rewrite Q1, Q2. cbn [orb]. clear Q1 Q2.
  assert (HM : forall (X Y : res (option Qc)), (match ns ++ ds with [] => X | _ :: _ => if (match ns ++ ds with [c] => c =? c_minus | _ => false end) then Ok (Some (- (1))%Qc) else Y end) =
    if (match ns ++ ds with [] => true | _ => false end) then X else Y).
  { intros X Y. destruct (ns ++ ds) as [|c [|d s]] eqn:E; try reflexivity. replace (c =? c_minus) with false; [reflexivity|]. symmetry. apply N.eqb_neq. intros ->.
    subst ns ds. destruct (Z.eqb_spec (qnum a) 1); [destruct (Z.eqb_spec (qden a) 1); [discriminate|cbn [app] in E; injection E as X1 X2; discriminate]|].
    destruct (str_of_Z_head (qnum a)) as [c [s [H [_ K]]]]. rewrite H in E. cbn [app] in E. injection E as -> E. apply app_eq_nil in E. destruct E as [-> _]. apply (K eq_refl). reflexivity. }
  rewrite HM. clear HM. subst ns ds. destruct (Z.eqb_spec (qden a) 1) as [D|D].
  - rewrite app_nil_r. destruct (Z.eqb_spec (qnum a) 1) as [N|N].
    + cbn iota. f_equal. f_equal. rewrite <- (frac_back a), N, D. apply Qc_is_canon. reflexivity.
    + destruct (str_of_Z_head (qnum a)) as [c [s [H _]]]. rewrite H. rewrite <- H. rewrite (cmem_false c_slash) by apply no_slash. rewrite int_back.
      f_equal. f_equal. rewrite <- (frac_back a) at 2. rewrite D. replace (Qcz 1) with 1%Qc by (apply Qc_is_canon; reflexivity). field. intros X. apply (f_equal (fun q => Qnum (this q))) in X. discriminate X.
  - replace (match (if (qnum a =? 1)%Z then [] else str_of_Z (qnum a)) ++ c_slash :: str_of_Z (qden a) with [] => true | _ => false end) with false by (destruct (if (qnum a =? 1)%Z then [] else str_of_Z (qnum a)); reflexivity).
    assert (M : cmem c_slash ((if (qnum a =? 1)%Z then [] else str_of_Z (qnum a)) ++ c_slash :: str_of_Z (qden a)) = true).
    { apply existsb_exists. exists c_slash. split; [apply in_app_iff; right; left; reflexivity|apply N.eqb_refl]. }
    rewrite M. rewrite split_ok by (destruct (qnum a =? 1)%Z; [intros []|apply no_slash]). rewrite (cmem_false c_slash) by apply no_slash.
    assert (MF : forall n, mkfrac n (qden a) = Ok (Qcz n / Qcz (qden a))%Qc). { intros n. unfold mkfrac. pose proof (qden_pos a). destruct (Z.eqb_spec (qden a) 0); [lia|reflexivity]. }
    destruct (Z.eqb_spec (qnum a) 1) as [N|N].
    + rewrite int_back, MF. cbn [bind]. f_equal. f_equal. rewrite <- N. apply frac_back.
    + destruct (str_of_Z_head (qnum a)) as [c [s [H [_ K]]]]. rewrite H. cbv zeta. cbn iota.
      destruct s as [|d s]; [destruct (N.eqb_spec c c_minus) as [->|]; [exfalso; apply (K eq_refl); reflexivity|]|];
        rewrite <- H, int_back, int_back, MF; cbn [bind]; rewrite frac_back; reflexivity.
Qed.

Lemma phase_roundtrip : forall lim a t, (qden a <= 256)%Z -> t <> HBOX -> string_to_phase (phase_to_s lim a t) = Ok (Some a).
Proof.
  intros lim a t D T. unfold phase_to_s. replace (vtype_eqb t HBOX) with false by (symmetry; destruct t; auto; congruence). cbn [negb]. rewrite andb_true_r, andb_false_r.
  destruct (qeqb_spec a 0%Qc) as [->|N]; [reflexivity|]. replace (256 <? qden a)%Z with false by (symmetry; apply Z.ltb_ge; exact D). cbv zeta. cbn [app]. apply parse_printed.
Qed.
(** the label of an H-box parses back unless the phase is 1 *)
Lemma phase_roundtrip_hbox : forall lim a, (qden a <= 256)%Z -> string_to_phase (phase_to_s lim a HBOX) = Ok (Some (if qeqb a 1%Qc then 0%Qc else a)).
Proof.
  intros lim a D. unfold phase_to_s. change (vtype_eqb HBOX HBOX) with true. cbn [negb]. rewrite andb_false_r, andb_true_r. destruct (qeqb_spec a 1%Qc) as [->|N]; [reflexivity|].
  destruct (qeqb_spec a 0%Qc) as [->|N0]; [vm_compute; f_equal; f_equal; apply Qc_is_canon; reflexivity|]. replace (256 <? qden a)%Z with false by (symmetry; apply Z.ltb_ge; exact D). cbv zeta. cbn [app]. apply parse_printed.
Qed.

(** denominators above 256 are printed with a leading tilde, which no number has *)
Lemma tilde_not_number : forall r, string_to_phase (c_tilde :: r) = Ok None.
Proof.
  intros r. unfold string_to_phase. change (drop_pi (filter (fun c => negb (c =? c_space)) (map lower (c_tilde :: r)))) with (clean (c_tilde :: r)).
  assert (E : exists t, clean (c_tilde :: r) = c_tilde :: t).
  { unfold clean. cbn [map filter]. change (lower c_tilde) with c_tilde. change (negb (c_tilde =? c_space)) with true. cbn iota. set (t := filter _ _). exists (drop_pi t). cbn [drop_pi]. change (c_tilde =? c_pi) with false. change (c_tilde =? c_p) with false. change (c_tilde =? c_back) with false. cbn [andb]. destruct t as [|d [|e t]]; reflexivity. }
  destruct E as [t E]. cbv zeta. rewrite E. replace (match t with [] => c_tilde =? c_minus | _ => false end) with false by (destruct t; reflexivity).
  assert (NI : forall s, int_of (c_tilde :: s) = None).
  { intros s. unfold int_of. change (c_tilde =? c_minus) with false. change (c_tilde =? c_plus) with false. cbn iota. unfold digits_of. cbn [chars_uint]. destruct (chars_uint s); reflexivity. }
  destruct (cmem c_dot (c_tilde :: t) || cmem c_e (c_tilde :: t)); [reflexivity|]. destruct (cmem c_slash (c_tilde :: t)); [|rewrite NI; reflexivity].
  cbn [split_slash]. change (c_tilde =? c_slash) with false. cbn iota. destruct (split_slash t) as [a [b|]]; [|reflexivity]. destruct (cmem c_slash b); [reflexivity|].
  destruct a as [|c a]; [change (c_tilde =? c_minus) with false; cbn iota|]; rewrite NI; reflexivity.
Qed.
Lemma phase_large : forall lim a t, (256 < qden a)%Z -> string_to_phase (phase_to_s lim a t) = Ok None.
Proof.
  intros lim a t D. unfold phase_to_s.
  assert (N : forall z, a <> Qcz z). { intros z ->. assert (X : qden (Qcz z) = 1%Z). { unfold qden, Qcz. cbn [this Q2Qc]. replace (Qred (inject_Z z)) with (inject_Z z); [reflexivity|]. symmetry. apply (Qred_identity (inject_Z z)). simpl. apply Z.gcd_1_r. } lia. }
  replace (qeqb a 0%Qc) with false by (destruct (qeqb_spec a 0%Qc) as [E|]; [exfalso; apply (N 0%Z); rewrite E; apply Qc_is_canon; reflexivity|reflexivity]).
  replace (qeqb a 1%Qc) with false by (destruct (qeqb_spec a 1%Qc) as [E|]; [exfalso; apply (N 1%Z); rewrite E; apply Qc_is_canon; reflexivity|reflexivity]).
  cbn [andb]. replace (256 <? qden a)%Z with true by (symmetry; apply Z.ltb_lt; exact D). cbv zeta. cbn [app]. apply tilde_not_number.
Qed.

(** the spellings of pi that may follow the numerator: nothing, the letter, "pi" in
    either case, with a backslash, surrounded by blanks *)
Inductive pi_spelling : str -> Prop :=
| sp_none : pi_spelling []
| sp_blank : forall s, pi_spelling s -> pi_spelling (c_space :: s)
| sp_letter : forall s, pi_blank s -> pi_spelling (c_pi :: s)
| sp_word : forall p i s, In p [112; 80] -> In i [105; 73] -> pi_blank s -> pi_spelling (p :: i :: s)
| sp_back_letter : forall s, pi_blank s -> pi_spelling (c_back :: c_pi :: s)
| sp_back_word : forall p i s, In p [112; 80] -> In i [105; 73] -> pi_blank s -> pi_spelling (c_back :: p :: i :: s)
with pi_blank : str -> Prop :=
| bl_none : pi_blank []
| bl_space : forall s, pi_blank s -> pi_blank (c_space :: s).
Lemma clean_blank : forall s t, pi_blank s -> clean (s ++ t) = clean t.
Proof. intros s t H. induction H; [reflexivity|]. rewrite <- IHpi_blank. reflexivity. Qed.
Lemma clean_spelling : forall s t, pi_spelling s -> clean (s ++ t) = clean t.
Proof.
  intros s t H. induction H as [|s H IH|s H|p i s Hp Hi H|s H|p i s Hp Hi H]; [reflexivity|rewrite <- IH; reflexivity|..]; rewrite <- (clean_blank s t H).
  - exact (clean_pi (s ++ t)).
  - destruct Hp as [<-|[<-|[]]], Hi as [<-|[<-|[]]]; unfold clean; rewrite <- !app_comm_cons; reflexivity.
  - unfold clean; rewrite <- !app_comm_cons; reflexivity.
  - destruct Hp as [<-|[<-|[]]], Hi as [<-|[<-|[]]]; unfold clean; rewrite <- !app_comm_cons; cbn [map filter]; reflexivity.
Qed.
Lemma written_fraction : forall n d sp, pi_spelling sp -> string_to_phase (str_of_Z n ++ sp ++ c_slash :: str_of_Z d) = if Z.eqb d 0 then Err ZeroDivisionError else Ok (Some (Qcz n / Qcz d)%Qc).
Proof.
  intros n d sp S. assert (P2 : forall c, In c (c_slash :: str_of_Z d) -> plain c) by (intros c [<-|H]; [right; left; reflexivity|eapply plain_Z; exact H]).
  assert (C : clean (str_of_Z n ++ sp ++ c_slash :: str_of_Z d) = str_of_Z n ++ c_slash :: str_of_Z d). { rewrite clean_plain by apply plain_Z. rewrite clean_spelling by exact S. rewrite clean_all by exact P2. reflexivity. }
  assert (P : forall c, In c (str_of_Z n ++ c_slash :: str_of_Z d) -> plain c) by (intros c H; apply in_app_iff in H; destruct H; [eapply plain_Z; eassumption|auto]).
  assert (Q1 : cmem c_dot (str_of_Z n ++ c_slash :: str_of_Z d) = false) by (apply cmem_false; intros H; destruct (lower_plain _ (P _ H)) as [_ [_ [_ [_ [_ [X _]]]]]]; congruence).
  assert (Q2 : cmem c_e (str_of_Z n ++ c_slash :: str_of_Z d) = false) by (apply cmem_false; intros H; destruct (lower_plain _ (P _ H)) as [_ [_ [_ [_ [_ [_ X]]]]]]; congruence).
  assert (M : cmem c_slash (str_of_Z n ++ c_slash :: str_of_Z d) = true) by (apply existsb_exists; exists c_slash; split; [apply in_app_iff; right; left; reflexivity|apply N.eqb_refl]).
  unfold string_to_phase. change (drop_pi (filter (fun c => negb (c =? c_space)) (map lower (str_of_Z n ++ sp ++ c_slash :: str_of_Z d)))) with (clean (str_of_Z n ++ sp ++ c_slash :: str_of_Z d)). cbv zeta. rewrite C, Q1, Q2, M. cbn [orb].
  rewrite split_ok by apply no_slash. rewrite (cmem_false c_slash) by apply no_slash.
  destruct (str_of_Z_head n) as [c [s [H [_ K]]]]. rewrite H. rewrite <- !app_comm_cons. cbn iota.
  replace (match s ++ c_slash :: str_of_Z d with [] => c =? c_minus | _ :: _ => false end) with false by (destruct s; reflexivity).
  assert (F : (let* q := mkfrac n d in Ok (Some q)) = if Z.eqb d 0 then Err ZeroDivisionError else Ok (Some (Qcz n / Qcz d)%Qc)) by (unfold mkfrac; destruct (Z.eqb d 0); reflexivity).
  destruct s as [|e s]; [destruct (N.eqb_spec c c_minus) as [->|]; [exfalso; apply (K eq_refl); reflexivity|]|]; rewrite <- H, int_back, int_back; exact F.
Qed.

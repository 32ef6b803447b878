(** The multigraph backend: storage of parallel wires. *)
From Coq Require Import Reals ZArith QArith Qcanon List Bool Arith Lia.
From Verif Require Import CNum Base ScalarModel ScalarProofs GraphModel GraphProofs GraphSem SumLemmas MultiModel.
Import ListNotations.
Open Scope Z_scope.

Definition mref (g : mgraph) (u v : nat) : option nat := match dget u (madj g) with Some d => dget v d | None => None end.
Definition mverts (g : mgraph) : list nat := dkeys (madj g).
(** the Edge object between two vertices, no wires when there is none *)
Definition cur (h : heap) (g : mgraph) (u v : nat) : medge := match mref g u v with Some r => hget h r | None => mkE 0 0 end.
Definition nonneg (e : medge) : Prop := 0 <= es e /\ 0 <= eh e.

(** Invariant of the store: the two entries of a pair are the same object, and
    different pairs have different objects. *)
Record mwf (h : heap) (g : mgraph) : Prop := mkmwf {
  w_nd : NoDup (mverts g);
  w_in : forall u d, dget u (madj g) = Some d -> NoDup (dkeys d);
  w_ty : forall u, In u (mverts g) -> exists t, dget u (mty g) = Some t;
  w_lt : forall u v r, mref g u v = Some r -> (r < length h)%nat /\ nonneg (hget h r);
  w_sym : forall u v r, mref g u v = Some r -> mref g v u = Some r;
  w_inj : forall u v u' v' r, mref g u v = Some r -> mref g u' v' = Some r -> pair_hit u v u' v' = true }.

Lemma phit : forall s t u v, pair_hit s t u v = true <-> (u = s /\ v = t) \/ (u = t /\ v = s).
Proof. intros. unfold pair_hit. rewrite orb_true_iff, !andb_true_iff, !Nat.eqb_eq. tauto. Qed.
Lemma phit_f : forall s t u v, pair_hit s t u v = false <-> ~ ((u = s /\ v = t) \/ (u = t /\ v = s)).
Proof. intros. rewrite <- phit. destruct (pair_hit s t u v); split; intros; congruence. Qed.

(** everything but the wires *)
Definition mframe (g g' : mgraph) : Prop :=
  mverts g' = mverts g /\ mauto g' = mauto g /\ mvindex g' = mvindex g /\ mty g' = mty g /\ mphase g' = mphase g /\ minputs g' = minputs g /\ moutputs g' = moutputs g /\ mscalar g' = mscalar g.
Lemma mframe_refl : forall g, mframe g g.
Proof. intros. repeat split. Qed.
Lemma mframe_trans : forall a b c, mframe a b -> mframe b c -> mframe a c.
Proof. unfold mframe. intros a b c (A1&A2&A3&A4&A5&A6&A7&A8) (B1&B2&B3&B4&B5&B6&B7&B8). repeat split; congruence. Qed.

Definition same1 (s t u v : nat) : bool := Nat.eqb u s && Nat.eqb v t.
Lemma put_spec : forall s t r g, In s (mverts g) -> (forall u d, dget u (madj g) = Some d -> NoDup (dkeys d)) ->
  exists g', m_put s t r g = Ok g' /\ mframe g g' /\ mnedges g' = mnedges g /\ (forall u d, dget u (madj g') = Some d -> NoDup (dkeys d)) /\
  forall u v, mref g' u v = if same1 s t u v then Some r else mref g u v.
Proof.
  intros s t r g I N. unfold mverts in I. apply dget_keys in I. destruct I as [d D]. unfold m_put. rewrite D. cbn [of_opt bind]. eexists. split; [reflexivity|].
  split; [repeat split; unfold mverts; cbn [madj m_with_adj]; apply dkeys_dset_in; apply dget_keys; eauto|]. split; [reflexivity|]. cbn [madj m_with_adj]. split.
  - intros u d' H. rewrite dget_dset in H. destruct (Nat.eqb_spec u s); [injection H as <-; apply nodup_dset; eapply N; exact D|eapply N; exact H].
  - intros u v. unfold mref, same1. cbn [madj m_with_adj]. rewrite dget_dset. destruct (Nat.eqb_spec u s) as [->|]; [|reflexivity]. rewrite dget_dset, D. cbn [andb]. reflexivity.
Qed.
Lemma del_spec : forall s t r g, mref g s t = Some r -> (forall u d, dget u (madj g) = Some d -> NoDup (dkeys d)) ->
  exists g', m_del s t g = Ok g' /\ mframe g g' /\ mnedges g' = mnedges g /\ (forall u d, dget u (madj g') = Some d -> NoDup (dkeys d)) /\
  forall u v, mref g' u v = if same1 s t u v then None else mref g u v.
Proof.
  intros s t r g R N. unfold mref in R. destruct (dget s (madj g)) as [d|] eqn:D; [|discriminate]. unfold m_del. rewrite D. cbn [of_opt bind]. unfold dmem. rewrite R. eexists. split; [reflexivity|].
  split; [repeat split; unfold mverts; cbn [madj m_with_adj]; apply dkeys_dset_in; apply dget_keys; eauto|]. split; [reflexivity|]. cbn [madj m_with_adj]. split.
  - intros u d' H. rewrite dget_dset in H. destruct (Nat.eqb_spec u s); [injection H as <-; apply nodup_ddel; eapply N; exact D|eapply N; exact H].
  - intros u v. unfold mref, same1. cbn [madj m_with_adj]. rewrite dget_dset. destruct (Nat.eqb_spec u s) as [->|]; [|reflexivity]. rewrite dget_ddel by (eapply N; exact D). rewrite D. cbn [andb]. reflexivity.
Qed.
Lemma del_none : forall s t g, mref g s t = None -> m_del s t g = Err KeyError.
Proof. intros s t g R. unfold mref in R. unfold m_del. destruct (dget s (madj g)) as [d|]; [|reflexivity]. cbn [of_opt bind]. unfold dmem. rewrite R. reflexivity. Qed.
Lemma same1_pair : forall s t u v, pair_hit s t u v = same1 s t u v || same1 t s u v.
Proof. reflexivity. Qed.

Lemma hget_hset : forall h r r' e, (r < length h)%nat -> hget (hset h r e) r' = if Nat.eqb r' r then e else hget h r'.
Proof.
  unfold hget. induction h as [|a h IH]; intros r r' e L; [simpl in L; lia|]. destruct r as [|r], r' as [|r']; cbn [hset nth]; try reflexivity.
  cbn [length] in L. rewrite IH by lia. reflexivity.
Qed.
Lemma hset_len : forall h r e, length (hset h r e) = length h.
Proof. induction h as [|a h IH]; intros [|r] e; cbn [hset length]; auto. Qed.
Lemma hget_app : forall h e r, hget (h ++ [e]) r = if Nat.eqb r (length h) then e else hget h r.
Proof.
  intros h e r. unfold hget. destruct (Nat.eqb_spec r (length h)) as [->|]; [rewrite app_nth2, Nat.sub_diag by lia; reflexivity|].
  destruct (Nat.lt_ge_cases r (length h)); [apply app_nth1; assumption|]. rewrite app_nth2 by lia. rewrite (nth_overflow h) by lia. apply nth_overflow. simpl. lia.
Qed.

(** the reference of the pair, fresh if there was none *)
Definition obtain (s t : nat) (d : dict nat) (h : heap) (g : mgraph) : res (heap * mgraph * nat) :=
  match dget t d with
  | Some r => Ok (h, g, r)
  | None =>
    let r := length h in
    let* g := m_put s t r g in
    let* g := m_put t s r g in
    Ok (h ++ [mkE 0 0], g, r)
  end.
Lemma obtain_ok : forall s t d h g, mwf h g -> dget s (madj g) = Some d -> In t (mverts g) ->
  exists h' g' r, obtain s t d h g = Ok (h', g', r) /\ mwf h' g' /\ mframe g g' /\ mnedges g' = mnedges g /\ mref g' s t = Some r /\ forall u v, cur h' g' u v = cur h g u v.
Proof.
  intros s t d h g W D T. unfold obtain. destruct (dget t d) as [r|] eqn:R.
  { exists h, g, r. split; [reflexivity|]. split; [exact W|]. split; [apply mframe_refl|]. split; [reflexivity|]. split; [|reflexivity]. unfold mref. rewrite D. exact R. }
  assert (S : In s (mverts g)) by (apply dget_keys; eauto).
  destruct (put_spec s t (length h) g S (w_in _ _ W)) as (g1 & E1 & F1 & M1 & N1 & R1).
  assert (T1 : In t (mverts g1)) by (destruct F1 as [-> _]; exact T).
  destruct (put_spec t s (length h) g1 T1 N1) as (g2 & E2 & F2 & M2 & N2 & R2).
  cbv zeta. rewrite E1. cbn [bind]. rewrite E2. cbn [bind]. exists (h ++ [mkE 0 0]), g2, (length h). split; [reflexivity|].
  assert (R0 : mref g s t = None) by (unfold mref; rewrite D; exact R).
  assert (R0' : mref g t s = None) by (destruct (mref g t s) as [r|] eqn:X; [apply (w_sym _ _ W) in X; congruence|reflexivity]).
  assert (RR : forall u v, mref g2 u v = if pair_hit s t u v then Some (length h) else mref g u v).
  { intros u v. rewrite R2, R1, same1_pair. destruct (same1 t s u v), (same1 s t u v); reflexivity. }
  assert (LT : forall u v r, mref g u v = Some r -> r <> length h) by (intros u v r X; apply (w_lt _ _ W) in X; lia).
  pose proof (mframe_trans _ _ _ F1 F2) as F.
  assert (CU : forall u v, cur (h ++ [mkE 0 0]) g2 u v = cur h g u v).
  { intros u v. unfold cur. rewrite RR. destruct (pair_hit s t u v) eqn:P.
    - rewrite hget_app, Nat.eqb_refl. apply phit in P. destruct P as [[-> ->]|[-> ->]]; [rewrite R0|rewrite R0']; reflexivity.
    - destruct (mref g u v) as [r|] eqn:X; [|reflexivity]. rewrite hget_app. apply LT in X. apply Nat.eqb_neq in X. rewrite X. reflexivity. }
  split.
  { constructor.
    - destruct F as [-> _]. apply (w_nd _ _ W).
    - exact N2.
    - destruct F as (-> & _ & _ & -> & _). apply (w_ty _ _ W).
    - intros u v r X. rewrite RR in X. rewrite app_length. simpl. destruct (pair_hit s t u v).
      + injection X as <-. rewrite hget_app, Nat.eqb_refl. split; [lia|]. split; simpl; lia.
      + destruct (w_lt _ _ W u v r X) as [L1 L2]. split; [lia|]. rewrite hget_app. pose proof (LT _ _ _ X) as Z. apply Nat.eqb_neq in Z. rewrite Z. exact L2.
    - intros u v r X. rewrite RR in *. rewrite pair_hit_sym. destruct (pair_hit s t u v); [exact X|]. apply (w_sym _ _ W). exact X.
    - intros u v u' v' r X Y. rewrite RR in X, Y. destruct (pair_hit s t u v) eqn:P, (pair_hit s t u' v') eqn:P'.
      + apply phit in P, P'. apply phit. destruct P as [[-> ->]|[-> ->]], P' as [[-> ->]|[-> ->]]; auto.
      + injection X as <-. exfalso. exact (LT _ _ _ Y eq_refl).
      + injection Y as <-. exfalso. exact (LT _ _ _ X eq_refl).
      + eapply (w_inj _ _ W); eassumption. }
  split; [exact F|]. split; [congruence|]. split; [rewrite RR, pair_hit_st; reflexivity|exact CU].
Qed.

Lemma write_ok : forall s t r e h g, mwf h g -> mref g s t = Some r -> nonneg e ->
  mwf (hset h r e) g /\ forall u v, cur (hset h r e) g u v = if pair_hit s t u v then e else cur h g u v.
Proof.
  intros s t r e h g W R N. destruct (w_lt _ _ W _ _ _ R) as [L _]. split.
  - constructor; try apply W. intros u v r' X. rewrite hset_len, hget_hset by exact L. destruct (w_lt _ _ W _ _ _ X) as [L1 L2]. split; [exact L1|]. destruct (Nat.eqb r' r); assumption.
  - intros u v. unfold cur. destruct (pair_hit s t u v) eqn:P.
    + assert (X : mref g u v = Some r) by (apply phit in P; destruct P as [[-> ->]|[-> ->]]; [exact R|apply (w_sym _ _ W), R]). rewrite X, hget_hset, Nat.eqb_refl by exact L. reflexivity.
    + destruct (mref g u v) as [r'|] eqn:X; [|reflexivity]. rewrite hget_hset by exact L. destruct (Nat.eqb_spec r' r) as [->|]; [|reflexivity].
      pose proof (w_inj _ _ W _ _ _ _ _ R X). congruence.
Qed.
Lemma empty_zero : forall e, e_empty e = true -> e = mkE 0 0.
Proof. intros [a b] H. unfold e_empty in H. cbn [es eh] in H. apply andb_prop in H. destruct H as [H1 H2]. apply Z.eqb_eq in H1, H2. subst. reflexivity. Qed.
Lemma drop_ok : forall s t r h g, mwf h g -> mref g s t = Some r -> hget h r = mkE 0 0 -> s <> t ->
  exists g1 g2, m_del s t g = Ok g1 /\ m_del t s g1 = Ok g2 /\ mwf h g2 /\ mframe g g2 /\ mnedges g2 = mnedges g /\ (forall u v, mref g2 u v = if pair_hit s t u v then None else mref g u v) /\ forall u v, cur h g2 u v = cur h g u v.
Proof.
  intros s t r h g W R Z ST. destruct (del_spec s t r g R (w_in _ _ W)) as (g1 & E1 & F1 & M1 & N1 & R1).
  pose proof (w_sym _ _ W _ _ _ R) as R'.
  assert (X : mref g1 t s = Some r). { rewrite R1. unfold same1. replace (Nat.eqb t s) with false by (symmetry; apply Nat.eqb_neq; congruence). exact R'. }
  destruct (del_spec t s r g1 X N1) as (g2 & E2 & F2 & M2 & N2 & R2). exists g1, g2. split; [exact E1|]. split; [exact E2|].
  assert (RR : forall u v, mref g2 u v = if pair_hit s t u v then None else mref g u v) by (intros u v; rewrite R2, R1, same1_pair; destruct (same1 t s u v), (same1 s t u v); reflexivity).
  pose proof (mframe_trans _ _ _ F1 F2) as F. split.
  - constructor.
    + destruct F as [-> _]. apply (w_nd _ _ W).
    + exact N2.
    + destruct F as (-> & _ & _ & -> & _). apply (w_ty _ _ W).
    + intros u v r' Y. rewrite RR in Y. destruct (pair_hit s t u v); [discriminate|]. apply (w_lt _ _ W _ _ _ Y).
    + intros u v r' Y. rewrite RR in *. rewrite pair_hit_sym. destruct (pair_hit s t u v); [discriminate|]. apply (w_sym _ _ W _ _ _ Y).
    + intros u v u' v' r' Y Y'. rewrite RR in Y, Y'. destruct (pair_hit s t u v); [discriminate|]. destruct (pair_hit s t u' v'); [discriminate|]. eapply (w_inj _ _ W); eassumption.
  - split; [exact F|]. split; [congruence|]. split; [exact RR|]. intros u v. unfold cur. rewrite RR. destruct (pair_hit s t u v) eqn:P; [|reflexivity]. apply phit in P. destruct P as [[-> ->]|[-> ->]]; [rewrite R|rewrite R']; congruence.
Qed.
Lemma mwf_scalar : forall h g c, mwf h g -> mwf h (m_with_scalar c g).
Proof. intros h g c W. constructor; apply W. Qed.
Lemma mwf_nedges : forall h g c, mwf h g -> mwf h (m_with_nedges c g).
Proof. intros h g c W. constructor; apply W. Qed.

(** one more wire *)
Definition plus1 (ty : etype) (e : medge) : medge := match ty with SIMPLE => mkE (es e + 1) (eh e) | HADAMARD => mkE (es e) (eh e + 1) end.
Lemma e_add_plus : forall ty e, nonneg e -> (match ty with SIMPLE => e_add 1 0 e | HADAMARD => e_add 0 1 e end) = Ok (plus1 ty e).
Proof.
  intros ty e [A B]. destruct ty; unfold e_add, plus1; cbn [es eh]; replace (es e + _ <? 0) with false by (symmetry; apply Z.ltb_ge; lia); replace (eh e + _ <? 0) with false by (symmetry; apply Z.ltb_ge; lia); cbn [orb]; rewrite ?Z.add_0_r; reflexivity.
Qed.
Definition spider (g : mgraph) (v : nat) : bool := match dget v (mty g) with Some t => vertex_is_zx_like t | None => false end.
Definition tyof (g : mgraph) (v : nat) : vtype := match dget v (mty g) with Some t => t | None => BOUNDARY end.

(** what happens to the wires between two vertices and the scalar *)
Definition after (g : mgraph) (s t : nat) (e : medge) : medge :=
  if mauto g && spider g s && spider g t then
    (if vtype_eqb (tyof g s) (tyof g t) then mkE (if es e >? 0 then 1 else 0) (eh e mod 2) else mkE (es e mod 2) (if eh e >? 0 then 1 else 0))
  else e.
Definition cancelling (g : mgraph) (s t : nat) (e : medge) : Z :=
  if mauto g && spider g s && spider g t then (if vtype_eqb (tyof g s) (tyof g t) then eh e else es e) else 0.

Lemma cur_nonneg : forall h g u v, mwf h g -> nonneg (cur h g u v).
Proof. intros h g u v W. unfold cur. destruct (mref g u v) as [r|] eqn:R; [apply (w_lt _ _ W _ _ _ R)|]. split; simpl; lia. Qed.
Lemma cur_ref : forall h g u v r, mref g u v = Some r -> cur h g u v = hget h r.
Proof. intros h g u v r H. unfold cur. rewrite H. reflexivity. Qed.
Lemma plus1_nonneg : forall ty e, nonneg e -> nonneg (plus1 ty e).
Proof. intros [] e [A B]; split; simpl; lia. Qed.
Lemma plus1_ne : forall ty e, nonneg e -> e_empty (plus1 ty e) = false.
Proof. intros [] e [A B]; unfold e_empty; simpl; apply andb_false_iff; [left|right]; apply Z.eqb_neq; lia. Qed.

(** the whole of add_edge, for two vertices or where nothing is simplified *)
Lemma add_edge_shape : forall s t ty h g, mwf h g -> In s (mverts g) -> In t (mverts g) -> (s <> t \/ mauto g && spider g s && spider g t = false) ->
  exists h' g', m_add_edge s t ty (h, g) = Ok (h', g') /\ mwf h' g' /\ mverts g' = mverts g /\ mauto g' = mauto g /\ mty g' = mty g /\ mphase g' = mphase g /\ minputs g' = minputs g /\ moutputs g' = moutputs g /\ mnedges g' = mnedges g + 1 /\
  to_number (mscalar g') = (sq2p (-2 * (cancelling g s t (plus1 ty (cur h g s t)) - cancelling g s t (plus1 ty (cur h g s t)) mod 2)) * to_number (mscalar g))%C /\
  forall u v, cur h' g' u v = if pair_hit s t u v then after g s t (plus1 ty (cur h g s t)) else cur h g u v.
Proof.
  intros s t ty h g W S T ST. unfold m_add_edge. set (g0 := m_with_nedges (mnedges g + 1) g).
  assert (W0 : mwf h g0) by (apply mwf_nedges; exact W).
  assert (D : exists d, dget s (madj g0) = Some d) by (apply dget_keys; exact S). destruct D as [d D]. cbv zeta. rewrite D. cbn [of_opt bind].
  destruct (obtain_ok s t d h g0 W0 D T) as (h1 & g1 & r & E1 & W1 & F1 & M1 & R1 & C1).
  unfold obtain in E1. cbv zeta in E1. rewrite E1. cbn [bind].
  assert (HR : hget h1 r = cur h g s t) by (rewrite <- (cur_ref h1 g1 s t r R1), C1; reflexivity).
  pose proof (cur_nonneg h g s t W) as NN. rewrite HR, e_add_plus by exact NN. cbn [bind]. set (e := plus1 ty (cur h g s t)).
  pose proof (plus1_nonneg ty _ NN) as NE. fold e in NE.
  destruct F1 as (V1 & A1 & _ & TY1 & P1 & I1 & O1 & SC1). change (mauto g0) with (mauto g) in A1. change (mty g0) with (mty g) in TY1. change (mphase g0) with (mphase g) in P1. change (minputs g0) with (minputs g) in I1. change (moutputs g0) with (moutputs g) in O1. change (mscalar g0) with (mscalar g) in SC1. change (mverts g0) with (mverts g) in V1. change (mnedges g0) with (mnedges g + 1) in M1.
  destruct (write_ok s t r e h1 g1 W1 R1 NE) as [W2 C2].
  rewrite A1. unfold after, cancelling. destruct (mauto g) eqn:AU; cbn [andb] in *.
  2:{ exists (hset h1 r e), g1. split; [reflexivity|]. split; [exact W2|]. repeat (split; [congruence|]). split; [rewrite SC1, Z.sub_diag, Z.mul_0_r, sq2p_0; ring|]. intros u v. rewrite C2, C1. reflexivity. }
  rewrite TY1. destruct (w_ty _ _ W s S) as [t1 T1]. destruct (w_ty _ _ W t T) as [t2 T2]. rewrite T1, T2. cbn [of_opt bind]. unfold spider in *. rewrite T1, T2 in *. unfold tyof. rewrite T1, T2.
  destruct (vertex_is_zx_like t1 && vertex_is_zx_like t2) eqn:SP.
  2:{ assert (NEmp : e_empty e = false) by (apply plus1_ne; exact NN). rewrite NEmp. exists (hset (hset h1 r e) r e), g1. destruct (write_ok s t r e (hset h1 r e) g1 W2 R1 NE) as [W3 C3].
    split; [reflexivity|]. split; [exact W3|]. repeat (split; [congruence|]). split; [rewrite SC1, Z.sub_diag, Z.mul_0_r, sq2p_0; ring|]. intros u v. rewrite C3, C2, C1. destruct (pair_hit s t u v); reflexivity. }
  destruct ST as [ST|ST]; [|discriminate]. replace (Nat.eqb s t) with false by (symmetry; apply Nat.eqb_neq; exact ST).
  set (e2 := if vtype_eqb t1 t2 then mkE (if es e >? 0 then 1 else 0) (eh e mod 2) else mkE (es e mod 2) (if eh e >? 0 then 1 else 0)).
  set (k := if vtype_eqb t1 t2 then eh e else es e).
  assert (SIMP : m_simp_pair t1 t2 e g1 = (e2, m_with_scalar (s_add_power (-2 * (k - k mod 2)) (mscalar g1)) g1)) by (unfold m_simp_pair, e2, k; destruct (vtype_eqb t1 t2); reflexivity).
  rewrite SIMP. set (g2 := m_with_scalar _ g1).
  assert (N2 : nonneg e2). { assert (forall x, 0 <= x mod 2) by (intros x; apply Z.mod_pos_bound; lia). unfold e2. destruct (vtype_eqb t1 t2); split; cbn [es eh]; auto; [destruct (es e >? 0)|destruct (eh e >? 0)]; lia. }
  assert (W2' : mwf (hset h1 r e) g2) by (apply mwf_scalar; exact W2).
  assert (R2 : mref g2 s t = Some r) by exact R1.
  destruct (write_ok s t r e2 (hset h1 r e) g2 W2' R2 N2) as [W3 C3].
  assert (C4 : forall u v, cur (hset (hset h1 r e) r e2) g2 u v = if pair_hit s t u v then e2 else cur h g u v).
  { intros u v. rewrite C3. change (cur (hset h1 r e) g2 u v) with (cur (hset h1 r e) g1 u v). rewrite C2, C1. destruct (pair_hit s t u v); reflexivity. }
  assert (SC : to_number (mscalar g2) = (sq2p (-2 * (k - k mod 2)) * to_number (mscalar g))%C) by (unfold g2; cbn [mscalar m_with_scalar]; rewrite add_power_number, SC1; reflexivity).
  destruct (e_empty e2) eqn:EM.
  - apply empty_zero in EM. assert (HR2 : hget (hset (hset h1 r e) r e2) r = mkE 0 0). { rewrite <- EM. destruct (w_lt _ _ W2' _ _ _ R2) as [L _]. rewrite hget_hset, Nat.eqb_refl by exact L. reflexivity. }
    destruct (drop_ok s t r _ g2 W3 R2 HR2 ST) as (g3 & g4 & E3 & E4 & W4 & F4 & M4 & _ & C5). rewrite E3. cbn [bind]. rewrite E4. cbn [bind]. eexists. exists g4. split; [reflexivity|]. split; [exact W4|].
    destruct F4 as (V4 & A4 & _ & TY4 & P4 & I4 & O4 & SC4). split; [rewrite V4; exact V1|]. split; [rewrite A4; exact A1|]. split; [rewrite TY4; exact TY1|]. split; [rewrite P4; exact P1|]. split; [rewrite I4; exact I1|]. split; [rewrite O4; exact O1|]. split; [rewrite M4; exact M1|]. split; [rewrite SC4; exact SC|].
    intros u v. rewrite C5. apply C4.
  - eexists. exists g2. split; [reflexivity|]. split; [exact W3|]. split; [exact V1|]. split; [exact A1|]. split; [exact TY1|]. split; [exact P1|]. split; [exact I1|]. split; [exact O1|]. split; [exact M1|]. split; [exact SC|]. exact C4.
Qed.

(** a self-loop on a spider is always emptied and then removed twice *)
Lemma add_loop_raises : forall s ty h g, mwf h g -> In s (mverts g) -> mauto g = true -> spider g s = true -> m_add_edge s s ty (h, g) = Err KeyError.
Proof.
  intros s ty h g W S AU SP. unfold m_add_edge. set (g0 := m_with_nedges (mnedges g + 1) g).
  assert (W0 : mwf h g0) by (apply mwf_nedges; exact W).
  assert (D : exists d, dget s (madj g0) = Some d) by (apply dget_keys; exact S). destruct D as [d D]. cbv zeta. rewrite D. cbn [of_opt bind].
  destruct (obtain_ok s s d h g0 W0 D S) as (h1 & g1 & r & E1 & W1 & F1 & M1 & R1 & C1).
  unfold obtain in E1. cbv zeta in E1. rewrite E1. cbn [bind].
  assert (HR : hget h1 r = cur h g s s) by (rewrite <- (cur_ref h1 g1 s s r R1), C1; reflexivity).
  pose proof (cur_nonneg h g s s W) as NN. rewrite HR, e_add_plus by exact NN. cbn [bind].
  destruct F1 as (V1 & A1 & _ & TY1 & _). change (mauto g0) with (mauto g) in A1. change (mty g0) with (mty g) in TY1. rewrite A1, AU, TY1. unfold spider in SP. destruct (dget s (mty g)) as [t1|]; [|discriminate]. cbn [of_opt bind]. rewrite SP. cbn [andb]. rewrite Nat.eqb_refl.
  unfold m_simp_loop. set (e := plus1 ty (cur h g s s)). set (g2 := m_with_scalar _ _).
  assert (R2 : forall u v, mref g2 u v = mref g1 u v) by (unfold g2; destruct (eh e mod 2 =? 1); reflexivity).
  assert (I2 : madj g2 = madj g1) by (unfold g2; destruct (eh e mod 2 =? 1); reflexivity).
  change (e_empty (mkE 0 0)) with true. cbn iota.
  assert (R3 : mref g2 s s = Some r) by (rewrite R2; exact R1).
  destruct (del_spec s s r g2 R3) as (g3 & E3 & _ & _ & _ & R4); [rewrite I2; apply (w_in _ _ W1)|]. rewrite E3. cbn [bind]. rewrite del_none; [reflexivity|]. rewrite R4. unfold same1. rewrite Nat.eqb_refl. reflexivity.
Qed.

(** Circuit depth. *)
From Coq Require Import ZArith QArith Qcanon List Bool Arith Lia.
From Verif Require Import CNum Base ScalarModel GateModel CircSpec.
Import ListNotations.
Close Scope Qc_scope. Close Scope Q_scope. Open Scope nat_scope.

(** ** specification *)
(** [a] is a subsequence of [l] *)
Inductive subseq : list gate -> list gate -> Prop :=
| sub_nil : subseq [] []
| sub_skip : forall a l g, subseq a l -> subseq a (l ++ [g])
| sub_take : forall a l g, subseq a l -> subseq (a ++ [g]) (l ++ [g]).
Definition share (g h : gate) : Prop := exists q, In q (gate_qubits g) /\ In q (gate_qubits h).
(** consecutive gates share a qubit *)
Inductive linked : list gate -> Prop :=
| linked_nil : linked []
| linked_one : forall g, linked [g]
| linked_snoc : forall a g h, linked (a ++ [g]) -> share g h -> linked ((a ++ [g]) ++ [h]).
Definition longest_chain (l : list gate) (d : nat) : Prop :=
  (exists a, subseq a l /\ linked a /\ length a = d) /\ forall a, subseq a l -> linked a -> length a <= d.
(** the classes that [depth] looks at *)
Definition counted (g : gate) : Prop :=
  match g with
  | GZ _ _ _ | GX _ _ _ | GHAD _ | GCZ _ _ | GXCX _ _ | GSWAP _ _ | GCNOT _ _ | GCCZ _ _ _ | GTof _ _ _ | GCSWAP _ _ _ => True
  | _ => False
  end.

(** ** proofs *)
Lemma lset_len : forall d i v, i < length d -> length (lset d i v) = length d.
Proof. intros. unfold lset. rewrite app_length, firstn_length. cbn [length]. rewrite skipn_length. lia. Qed.
Lemma lset_nth : forall d i v q, i < length d -> nth q (lset d i v) 0 = if Nat.eqb q i then v else nth q d 0.
Proof.
  intros d i v q H. unfold lset. destruct (Nat.eqb_spec q i) as [->|N].
  - rewrite app_nth2; rewrite firstn_length, Nat.min_l by lia; [|lia]. rewrite Nat.sub_diag. reflexivity.
  - destruct (Nat.lt_ge_cases q i).
    + rewrite app_nth1 by (rewrite firstn_length; lia). rewrite <- (firstn_skipn i d) at 2. rewrite app_nth1; auto. rewrite firstn_length. lia.
    + rewrite app_nth2; rewrite firstn_length, Nat.min_l by lia; [|lia]. destruct (q - i) as [|k] eqn:E; [lia|]. cbn [nth].
      rewrite <- (firstn_skipn (S i) d) at 2. rewrite app_nth2; rewrite firstn_length, Nat.min_l by lia; [|lia]. f_equal. lia.
Qed.
Definition qmax (d : list nat) (qs : list nat) : nat := list_max (map (fun q => nth q d 0) qs).
Lemma at_nth : forall d q, q < length d -> at_ d q = Ok (nth q d 0).
Proof. intros. unfold at_. rewrite (nth_error_nth' d 0); auto. Qed.
Lemma depth_step_ok : forall d g, counted g -> gate_in (length d) g -> exists d', depth_step d g = Ok d' /\ length d' = length d /\
  forall q, nth q d' 0 = if existsb (Nat.eqb q) (gate_qubits g) then S (qmax d (gate_qubits g)) else nth q d 0.
Proof.
  intros d g C [_ Q]. destruct g; try contradiction; cbn [gate_qubits] in *; cbn [depth_step]; rewrite ?at_nth by (apply Q; simpl; auto); cbn [bind]; eexists; (split; [reflexivity|]);
    repeat match goal with |- context [nth ?q d 0] => match goal with H : q < length d |- _ => fail 1 | _ => assert (q < length d) by (apply Q; simpl; auto) end end;
    (split; [rewrite ?lset_len by (rewrite ?lset_len by (rewrite ?lset_len by auto; auto); auto); auto|]).
  all: intros q; unfold qmax; cbn [map existsb list_max fold_right].
  all: rewrite ?lset_nth by (rewrite ?lset_len by (rewrite ?lset_len by auto; auto); auto).
  all: repeat match goal with |- context [Nat.eqb ?q ?t] => destruct (Nat.eqb q t) end; cbn [orb]; try reflexivity; try lia.
Qed.
Lemma qmax_ge : forall d qs q, In q qs -> nth q d 0 <= qmax d qs.
Proof.
  intros d qs q H. unfold qmax. assert (X := proj1 (list_max_le (map (fun q => nth q d 0) qs) _) (Nat.le_refl _)). rewrite Forall_forall in X. apply X. apply in_map_iff. eauto.
Qed.
Lemma qmax_in : forall d qs, qs <> [] -> exists q, In q qs /\ nth q d 0 = qmax d qs.
Proof.
  intros d qs. induction qs as [|a l IH]; [congruence|]. intros _. destruct l as [|b l].
  - exists a. split; [left; auto|]. unfold qmax. simpl. lia.
  - destruct IH as [q [I E]]; [discriminate|]. unfold qmax in *. cbn [map list_max fold_right] in *. destruct (Nat.le_ge_cases (nth a d 0) (nth q d 0)).
    + exists q. split; [right; auto|]. lia.
    + exists a. split; [left; auto|]. lia.
Qed.
Definition ends (a : list gate) (q : nat) : Prop := exists b g, a = b ++ [g] /\ In q (gate_qubits g).
Definition good_depth (l : list gate) (d : list nat) : Prop :=
  (forall a q, subseq a l -> linked a -> ends a q -> length a <= nth q d 0) /\
  (forall q, q < length d -> nth q d 0 = 0 \/ exists a, subseq a l /\ linked a /\ ends a q /\ length a = nth q d 0).
Lemma subseq_inv : forall a l, subseq a l -> forall l' g, l = l' ++ [g] -> subseq a l' \/ exists a', a = a' ++ [g] /\ subseq a' l'.
Proof.
  intros a l H l' g E. destruct H as [|a l h H|a l h H].
  - destruct l'; discriminate.
  - apply app_inj_tail in E. destruct E; subst. auto.
  - apply app_inj_tail in E. destruct E; subst. eauto.
Qed.
Lemma subseq_nil : forall l, subseq [] l.
Proof. intros l. induction l as [|g l IH] using rev_ind; [constructor|constructor; auto]. Qed.
Lemma subseq_nil_r : forall a, subseq a [] -> a = [].
Proof. intros a H. remember [] as l eqn:E. destruct H as [|a l h H|a l h H]; auto; destruct l; discriminate. Qed.
Lemma linked_inv : forall a g, linked (a ++ [g]) -> a = [] \/ exists b h, a = b ++ [h] /\ linked a /\ share h g.
Proof.
  intros a g H. remember (a ++ [g]) as c eqn:E. destruct H as [|h|b h k L S].
  - destruct a; discriminate.
  - destruct a as [|x [|y a]]; try discriminate. auto.
  - apply app_inj_tail in E. destruct E; subst. right. eauto.
Qed.
Lemma ends_snoc : forall a g q, ends (a ++ [g]) q <-> In q (gate_qubits g).
Proof.
  intros. split.
  - intros [b [h [E I]]]. apply app_inj_tail in E. destruct E; subst. auto.
  - intros I. exists a, g. auto.
Qed.
Lemma existsb_in : forall q l, existsb (Nat.eqb q) l = true <-> In q l.
Proof. intros. rewrite existsb_exists. split; [intros [x [I E]]; apply Nat.eqb_eq in E; subst; auto|intros; exists q; split; auto; apply Nat.eqb_refl]. Qed.
Lemma step_good : forall l d g d', gate_in (length d) g -> counted g -> good_depth l d -> depth_step d g = Ok d' -> good_depth (l ++ [g]) d' /\ length d' = length d.
Proof.
  intros l d g d' GI C [U W] E. destruct (depth_step_ok d g C GI) as [d0 [E0 [L0 N0]]]. rewrite E in E0. inversion E0; subst d0. clear E0. split; auto. destruct GI as [[_ [NE _]] Q]. split.
  - intros a q S K T. rewrite N0. destruct (subseq_inv _ _ S _ _ eq_refl) as [S'|[a' [-> S']]].
    + assert (X := U a q S' K T). destruct (existsb (Nat.eqb q) (gate_qubits g)) eqn:B; auto. apply existsb_in in B. assert (Y := qmax_ge d _ _ B). lia.
    + apply ends_snoc in T. apply existsb_in in T. rewrite T. rewrite app_length. cbn [length]. destruct (linked_inv _ _ K) as [->|[b [h [-> [K' [q0 [H1 H2]]]]]]]; [simpl; lia|].
      assert (X := U _ q0 S' K' ltac:(apply ends_snoc; auto)). assert (Y := qmax_ge d _ _ H2). lia.
  - intros q Hq. rewrite L0 in Hq. rewrite N0. destruct (existsb (Nat.eqb q) (gate_qubits g)) eqn:B.
    + apply existsb_in in B. right. destruct (qmax_in d _ NE) as [q0 [I0 E0]]. rewrite <- E0. destruct (W q0 (Q _ I0)) as [Z|[a [S [K [T A]]]]].
      * exists ([] ++ [g]). split; [apply sub_take, subseq_nil|]. split; [constructor|]. split; [apply ends_snoc; auto|]. simpl. lia.
      * exists (a ++ [g]). split; [apply sub_take; auto|]. destruct T as [b [h [-> Ih]]]. split; [constructor; auto; exists q0; auto|]. split; [apply ends_snoc; auto|]. rewrite app_length. simpl. lia.
    + destruct (W q Hq) as [Z|[a [S [K [T A]]]]]; auto. right. exists a. split; [constructor; auto|]. auto.
Qed.
Lemma fold_good : forall gs l d, (forall g, In g gs -> gate_in (length d) g /\ counted g) -> good_depth l d ->
  exists d', foldM depth_step gs d = Ok d' /\ good_depth (l ++ gs) d' /\ length d' = length d.
Proof.
  induction gs as [|g gs IH]; intros l d H G.
  - exists d. rewrite app_nil_r. auto.
  - destruct (H g (or_introl eq_refl)) as [GI C]. destruct (depth_step_ok d g C GI) as [d1 [E1 _]]. destruct (step_good l d g d1 GI C G E1) as [G1 L1].
    destruct (IH (l ++ [g]) d1) as [d' [E' [G' L']]]; auto; [intros; rewrite L1; apply H; right; auto|]. exists d'. cbn [foldM]. rewrite E1. cbn [bind]. rewrite E'. split; auto.
    rewrite <- app_assoc in G'. split; auto. congruence.
Qed.
Lemma linked_ends : forall a l n, subseq a l -> (forall g, In g l -> gate_in n g) -> a <> [] -> exists q, q < n /\ ends a q.
Proof.
  intros a l n S. induction S as [|a l g S IH|a l g S IH]; intros H NE; [congruence| |].
  - apply IH; auto. intros. apply H. apply in_or_app. auto.
  - destruct (H g) as [[_ [N _]] Q]; [apply in_or_app; right; left; auto|]. destruct (gate_qubits g) as [|q qs] eqn:E; [congruence|]. exists q. split; [apply Q; left; auto|]. apply ends_snoc. rewrite E. left. auto.
Qed.
Theorem depth_spec : forall c, 0 < cqubits c -> circ_ok c -> (forall g, In g (cgates c) -> counted g) ->
  exists d, c_depth c = Ok d /\ longest_chain (cgates c) d.
Proof.
  intros [n gs] P O C. unfold c_depth, circ_ok in *. cbn [cqubits cgates] in *.
  destruct (fold_good gs [] (repeat 0 n)) as [d [E [[U W] L]]].
  - rewrite repeat_length. auto.
  - split.
    + intros a q S K [b [g [-> _]]]. apply subseq_nil_r in S. destruct b; discriminate.
    + intros q _. left. destruct (nth_in_or_default q (repeat 0 n) 0) as [I|I]; auto. apply repeat_spec in I. auto.
  - rewrite E. cbn [bind app] in *. rewrite repeat_length in L. destruct d as [|d0 d]; [simpl in L; lia|]. exists (list_max (d0 :: d)). split; auto. split.
    + destruct (qmax_in (d0 :: d) (seq 0 n)) as [q [I M]]; [destruct n; [lia|discriminate]|]. apply in_seq in I.
      assert (X : qmax (d0 :: d) (seq 0 n) = list_max (d0 :: d)).
      { unfold qmax. f_equal. rewrite <- L. clear. generalize (d0 :: d). intros l. apply nth_ext with 0 0; [rewrite map_length, seq_length; auto|].
        intros i Hi. rewrite map_length, seq_length in Hi. rewrite (nth_indep _ _ ((fun q => nth q l 0) 0)) by (rewrite map_length, seq_length; auto). rewrite (map_nth (fun q => nth q l 0)), seq_nth; auto. }
      rewrite <- X, <- M. destruct (W q) as [Z|[a [S [K [_ A]]]]]; [lia| |].
      * exists []. split; [apply subseq_nil|]. split; [constructor|]. rewrite Z. auto.
      * exists a. auto.
    + intros a S K. destruct a as [|g a]; [simpl; lia|]. destruct (linked_ends _ _ n S O) as [q [Hq T]]; [discriminate|]. assert (Y := U _ q S K T).
      assert (X := proj1 (list_max_le (d0 :: d) _) (Nat.le_refl _)). rewrite Forall_forall in X. specialize (X (nth q (d0 :: d) 0) ltac:(apply nth_In; lia)). lia.
Qed.
(** depth does not depend on the order of adjacent gates on disjoint qubits *)
Lemma step_comm : forall d g h, counted g -> counted h -> gate_in (length d) g -> gate_in (length d) h -> ~ share g h ->
  bind (depth_step d g) (fun d => depth_step d h) = bind (depth_step d h) (fun d => depth_step d g).
Proof.
  intros d g h Cg Ch Ig Ih N.
  destruct (depth_step_ok d g Cg Ig) as [d1 [E1 [L1 N1]]]. destruct (depth_step_ok d h Ch Ih) as [d2 [E2 [L2 N2]]]. rewrite E1, E2. cbn [bind].
  destruct (depth_step_ok d1 h Ch) as [d3 [E3 [L3 N3]]]; [rewrite L1; auto|]. destruct (depth_step_ok d2 g Cg) as [d4 [E4 [L4 N4]]]; [rewrite L2; auto|]. rewrite E3, E4. f_equal.
  assert (M : forall d d' (qs qs' : list nat) v, (forall q, nth q d' 0 = if existsb (Nat.eqb q) qs then v else nth q d 0) -> (forall q, In q qs -> In q qs' -> False) -> qmax d' qs' = qmax d qs').
  { intros e e' qs qs' v He D. unfold qmax. f_equal. apply map_ext_in. intros q Hq. rewrite He. destruct (existsb (Nat.eqb q) qs) eqn:B; auto. apply existsb_in in B. exfalso. eauto. }
  apply nth_ext with 0 0; [congruence|]. intros q _. rewrite N3, N4, N1, N2.
  rewrite (M d d1 (gate_qubits g) (gate_qubits h) _ N1) by (intros q0 A B; apply N; exists q0; auto).
  rewrite (M d d2 (gate_qubits h) (gate_qubits g) _ N2) by (intros q0 A B; apply N; exists q0; auto).
  destruct (existsb (Nat.eqb q) (gate_qubits h)) eqn:Bh, (existsb (Nat.eqb q) (gate_qubits g)) eqn:Bg; auto. apply existsb_in in Bh. apply existsb_in in Bg. exfalso. apply N. exists q. auto.
Qed.
Lemma foldM_app : forall {A B} (f : B -> A -> res B) l l' s, foldM f (l ++ l') s = bind (foldM f l s) (fun s => foldM f l' s).
Proof. intros A B f l. induction l as [|a l IH]; intros l' s; auto. cbn [foldM app]. destruct (f s a); cbn [bind]; auto. Qed.
Theorem depth_swap : forall n l1 g h l2, circ_ok (mkCirc n (l1 ++ g :: h :: l2)) -> (forall g', In g' (l1 ++ g :: h :: l2) -> counted g') -> ~ share g h ->
  c_depth (mkCirc n (l1 ++ g :: h :: l2)) = c_depth (mkCirc n (l1 ++ h :: g :: l2)).
Proof.
  intros n l1 g h l2 O C N. unfold c_depth, circ_ok in *. cbn [cgates cqubits] in *. f_equal. rewrite !foldM_app.
  destruct (fold_good l1 [] (repeat 0 n)) as [d [E [_ L]]].
  - rewrite repeat_length. intros x Hx. split; [apply O|apply C]; apply in_or_app; auto.
  - split.
    + intros a q S K [b [x [-> _]]]. apply subseq_nil_r in S. destruct b; discriminate.
    + intros q _. left. destruct (nth_in_or_default q (repeat 0 n) 0) as [I|I]; auto. apply repeat_spec in I. auto.
  - rewrite E. cbn [bind foldM]. rewrite repeat_length in L.
    assert (X := step_comm d g h). rewrite L in X. assert (Ig : In g (l1 ++ g :: h :: l2)) by (apply in_or_app; right; left; auto). assert (Ih : In h (l1 ++ g :: h :: l2)) by (apply in_or_app; right; right; left; auto).
    specialize (X (C _ Ig) (C _ Ih) (O _ Ig) (O _ Ih) N). destruct (depth_step_ok d g (C _ Ig)) as [d1 [E1 _]]; [rewrite L; auto|].
    destruct (depth_step_ok d h (C _ Ih)) as [d2 [E2 _]]; [rewrite L; auto|]. rewrite E1, E2 in *. cbn [bind] in *. rewrite X. reflexivity.
Qed.

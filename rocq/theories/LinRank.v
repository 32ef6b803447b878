(** Rank, inverse, linear systems, kernel and CNOT synthesis: correctness of the
    users of Gaussian elimination in linalg.py. *)
From Coq Require Import List Bool Arith NArith Lia Permutation.
From Verif Require Import Base LinModel LinProofs LinAlg.
Import ListNotations.

(** ** A homogeneous system with more unknowns than equations *)
Fixpoint allbits (n : nat) : list (list bool) :=
  match n with O => [[]] | S n => map (cons false) (allbits n) ++ map (cons true) (allbits n) end.
Lemma allbits_in : forall n l, length l = n -> In l (allbits n).
Proof.
  induction n as [|n IH]; intros [|b l] H; simpl in H; try discriminate; [left; reflexivity|]. simpl. apply in_or_app.
  destruct b; [right|left]; apply in_map; apply IH; lia.
Qed.
Lemma allbits_len : forall n l, In l (allbits n) -> length l = n.
Proof.
  induction n as [|n IH]; intros l H; simpl in H; [destruct H as [<-|[]]; reflexivity|]. apply in_app_or in H.
  destruct H as [H|H]; apply in_map_iff in H; destruct H as [x [<- H]]; simpl; rewrite (IH x); auto.
Qed.
Lemma allbits_count : forall n, length (allbits n) = 2 ^ n.
Proof. induction n; simpl; auto. rewrite app_length, !map_length. lia. Qed.
Lemma allbits_nodup : forall n, NoDup (allbits n).
Proof.
  induction n as [|n IH]; simpl; [constructor; [intros []|constructor]|].
  assert (G : forall b, NoDup (map (cons b) (allbits n))) by (intros b; apply FinFun.Injective_map_NoDup; auto; intros x y H; congruence).
  assert (A : forall l1 l2, NoDup l1 -> NoDup l2 -> (forall x : list bool, In x l1 -> ~ In x l2) -> NoDup (l1 ++ l2)).
  { induction l1 as [|x l1 IHl]; intros l2 H1 H2 H; simpl; auto. inversion H1; subst. constructor.
    - intros I. apply in_app_or in I. destruct I as [I|I]; auto. apply (H x); auto. left; auto.
    - apply IHl; auto. intros y Hy. apply H. right; auto. }
  apply A; auto. intros x Hx Hy. apply in_map_iff in Hx, Hy. destruct Hx as [u [<- _]], Hy as [w [E _]]. discriminate.
Qed.
Lemma list_bool_dec : forall a b : list bool, {a = b} + {a <> b}.
Proof. apply list_eq_dec. apply bool_dec. Qed.
Lemma dup_or_nodup : forall (F : list bool -> list bool) l, NoDup l -> NoDup (map F l) \/ exists x y, In x l /\ In y l /\ x <> y /\ F x = F y.
Proof.
  intros F l. induction l as [|x l IH]; intros H; [left; constructor|]. inversion H; subst. destruct (IH H3) as [N|[u [w [A [B [D E]]]]]].
  - destruct (in_dec list_bool_dec (F x) (map F l)) as [I|I]; [right|left; constructor; auto].
    apply in_map_iff in I. destruct I as [y [E I]]. exists x, y. repeat split; auto; try (left; reflexivity); [right; auto|]. intros ->. contradiction.
  - right. exists u, w. repeat split; auto; right; auto.
Qed.
Lemma kernel_nontrivial : forall k l (A : nat -> nat -> bool), k < l ->
  exists v : nat -> bool, (exists i, i < l /\ v i = true) /\ forall t, t < k -> xsum (fun i => v i && A t i) l = false.
Proof.
  intros k l A H. set (F := fun u : list bool => map (fun t => xsum (fun i => nth i u false && A t i) l) (seq 0 k)).
  destruct (dup_or_nodup F (allbits l) (allbits_nodup l)) as [N|[x [y [Hx [Hy [D E]]]]]].
  - exfalso. assert (I : incl (map F (allbits l)) (allbits k)).
    { intros z Hz. apply in_map_iff in Hz. destruct Hz as [u [<- _]]. apply allbits_in. unfold F. rewrite map_length, seq_length. reflexivity. }
    assert (L := NoDup_incl_length N I). rewrite map_length, !allbits_count in L. assert (2 ^ k < 2 ^ l) by (apply Nat.pow_lt_mono_r; lia). lia.
  - apply allbits_len in Hx, Hy. exists (fun i => xorb (nth i x false) (nth i y false)). split.
    + assert (X : (exists i, i < l /\ nth i x false <> nth i y false) \/ forall i, i < l -> nth i x false = nth i y false).
      { clear - l. induction l as [|l IH]; [right; intros; lia|]. destruct IH as [[i [A B]]|IH]; [left; exists i; split; auto|].
        destruct (bool_dec (nth l x false) (nth l y false)); [right|left; exists l; auto]. intros i Hi. destruct (Nat.eq_dec i l) as [->|]; auto. apply IH; lia. }
      destruct X as [[i [Hi X]]|X].
      * exists i. split; auto. destruct (nth i x false), (nth i y false); auto; congruence.
      * exfalso. apply D. apply (nth_ext x y false false); [congruence|]. intros i Hi. apply X. lia.
    + intros t Ht. assert (E' : nth t (F x) false = nth t (F y) false) by congruence. unfold F in E'. rewrite !nth_map_seq in E' by auto.
      rewrite (xsum_ext _ (fun i => xorb (nth i x false && A t i) (nth i y false && A t i))); [rewrite xsum_xor, E'; apply xorb_nilpotent|].
      intros i _. destruct (nth i x false), (nth i y false), (A t i); reflexivity.
Qed.

(** ** Combinations of rows *)
(** entry [j] of the sum of the rows [i] with [v i] *)
Definition rowcomb (m : mat) (v : nat -> bool) (j : nat) : bool := xsum (fun i => v i && get m i j) (rows m).
(** the rows with index in [L] are linearly independent *)
Definition indep (m : mat) (L : list nat) : Prop :=
  forall v : nat -> bool, (forall i, v i = true -> In i L) -> (forall j, j < cols m -> rowcomb m v j = false) -> forall i, v i = false.
(** coefficients given by position in [L] *)
Fixpoint spread (u : nat -> bool) (L : list nat) (i : nat) : bool :=
  match L with [] => false | x :: L => if Nat.eqb i x then u 0 else spread (fun p => u (S p)) L i end.
Lemma spread_in : forall L u i, spread u L i = true -> In i L.
Proof. induction L as [|x L IH]; intros u i H; simpl in H; [discriminate|]. destruct (Nat.eqb_spec i x); [left; auto|right; eapply IH; eauto]. Qed.
Lemma spread_nth : forall L u p, NoDup L -> p < length L -> spread u L (nth p L 0) = u p.
Proof.
  induction L as [|x L IH]; intros u p N H; simpl in H; [lia|]. inversion N; subst. destruct p; simpl; [rewrite Nat.eqb_refl; auto|].
  destruct (Nat.eqb_spec (nth p L 0) x) as [E|]; [|apply (IH (fun p => u (S p))); auto; lia]. exfalso. apply H2. rewrite <- E. apply nth_In. lia.
Qed.
Lemma xsum_spread : forall L u f n, NoDup L -> (forall i, In i L -> i < n) ->
  xsum (fun i => spread u L i && f i) n = xsum (fun p => u p && f (nth p L 0)) (length L).
Proof.
  induction L as [|x L IH]; intros u f n N H; [apply xsum_zero; auto|]. inversion N; subst. cbn [length]. rewrite xsum_shift. cbn [nth].
  rewrite <- (IH (fun p => u (S p)) f n) by (auto; intros; apply H; right; auto).
  rewrite (xsum_ext _ (fun i => xorb (Nat.eqb i x && (u 0 && f i)) (spread (fun p => u (S p)) L i && f i))).
  - rewrite xsum_xor, xsum_delta. rewrite (proj2 (Nat.ltb_lt x n)) by (apply H; left; auto). reflexivity.
  - intros i Hi. cbn [spread]. destruct (Nat.eqb_spec i x) as [->|]; [|cbn [andb]; rewrite xorb_false_l; reflexivity].
    destruct (spread (fun p => u (S p)) L x) eqn:E; [exfalso; apply H2; eapply spread_in; eauto|]. cbn. rewrite xorb_false_r. reflexivity.
Qed.

Section Rank.
  Variables (m m' : mat) (ops : list (nat * nat)) (own : list nat).
  Hypothesis W : wfm m.
  Hypothesis HR : reach (rows m) (cols m) m (m', ops).
  Hypothesis HE : ech m' own (cols m).
  Notation r := (rows m). Notation c := (cols m).
  Let gi := track_y col_add ops (mat_id r).
  Let g := track_x row_add ops (mat_id r).
  Lemma rk_ops : Forall (opok r) ops. Proof. apply HR. Qed.
  Lemma rk_le : length own <= r. Proof. apply (ech_rows r c m' own c); auto. apply HR. Qed.
  Lemma m_shape : shape r c m. Proof. apply wfm_shape; auto. Qed.
  Lemma m'_shape : shape r c m'. Proof. replace m' with (track_x row_add ops m) by (symmetry; apply HR). apply track_shape; [apply m_shape|apply rk_ops]. Qed.
  Lemma g_rect : rect r r g. Proof. apply track_rect; [apply id_shape|apply rk_ops]. Qed.
  Lemma gi_rect : rect r r gi. Proof. apply track_y_rect. apply id_shape. Qed.
  (** rows of [m] from the non-zero rows of [m'] and back *)
  Lemma m_from : forall i j, i < r -> j < c -> get m i j = xsum (fun t => get gi i t && get m' t j) (length own).
  Proof.
    intros i j Hi Hj. assert (E := ops_undo r c ops m m_shape rk_ops). replace (track_x row_add ops m) with m' in E by apply HR.
    rewrite <- E at 1. fold gi. rewrite (mul_get r r c) by (auto using gi_rect, m'_shape). apply xsum_trunc; [apply rk_le|].
    intros t Ht. rewrite (e_rest _ _ _ HE) by (auto; lia). apply andb_false_r.
  Qed.
  Lemma m'_from : forall i j, i < r -> j < c -> get m' i j = xsum (fun t => get g i t && get m t j) r.
  Proof.
    intros i j Hi Hj. assert (E := ops_apply r c ops m m_shape rk_ops). replace (track_x row_add ops m) with m' in E by apply HR.
    rewrite E. fold g. apply (mul_get r r c); auto using g_rect, m_shape.
  Qed.
  Lemma m'_zero : forall i j, length own <= i -> get m' i j = false.
  Proof.
    intros i j Hi. destruct (Nat.ltb_spec j c); [apply (e_rest _ _ _ HE); auto|]. apply (get_out_c r c); auto. apply m'_shape.
  Qed.
  Lemma m'_indep : forall w : nat -> bool, (forall j, j < c -> xsum (fun t => w t && get m' t j) (length own) = false) -> forall t, t < length own -> w t = false.
  Proof.
    intros w H t. induction t as [t IH] using lt_wf_ind. intros Ht.
    assert (Hp := e_lt _ _ _ HE t Ht). specialize (H (nth t own 0) Hp). rewrite (xsum_one _ _ t Ht) in H.
    - rewrite (e_one _ _ _ HE) in H by auto. rewrite andb_true_r in H. exact H.
    - intros k Hk N. assert (k < t \/ t < k) as [L|L] by lia; [rewrite IH by (auto; lia); reflexivity|].
      rewrite (e_zero _ _ _ HE k); [apply andb_false_r|auto|]. apply (e_inc _ _ _ HE); auto.
  Qed.
  Lemma indep_le : forall L, NoDup L -> (forall i, In i L -> i < r) -> indep m L -> length L <= length own.
  Proof.
    intros L N HL IL. destruct (Nat.leb_spec (length L) (length own)); auto. exfalso.
    destruct (kernel_nontrivial (length own) (length L) (fun t p => get gi (nth p L 0) t) H) as [u [[p [Hp Up]] K]].
    assert (X : spread u L (nth p L 0) = false).
    { apply (IL (spread u L)).
      - intros i Hi. eapply spread_in; eauto.
      - intros j Hj. unfold rowcomb. rewrite (xsum_spread L u (fun i => get m i j)) by auto.
        rewrite (xsum_ext _ (fun p => xsum (fun t => u p && get gi (nth p L 0) t && get m' t j) (length own))).
        + rewrite xsum_swap. apply xsum_zero. intros t Ht. rewrite xsum_and, K by auto. reflexivity.
        + intros q Hq. rewrite m_from by (auto; apply HL; apply nth_In; auto). rewrite <- xsum_andl. apply xsum_ext. intros t _. apply andb_assoc. }
    rewrite spread_nth in X by auto. congruence.
  Qed.
  (** every row is a combination of the rows in [L] *)
  Definition spans (L : list nat) (n : nat) : Prop :=
    forall i, i < n -> exists u : nat -> bool, forall j, j < c -> get m i j = xsum (fun p => u p && get m (nth p L 0) j) (length L).
  Lemma span_dec : forall L i, (exists u : nat -> bool, forall j, j < c -> get m i j = xsum (fun p => u p && get m (nth p L 0) j) (length L)) \/
    ~ (exists u : nat -> bool, forall j, j < c -> get m i j = xsum (fun p => u p && get m (nth p L 0) j) (length L)).
  Proof.
    intros L i. set (test := fun x : list bool => forallb (fun j => Bool.eqb (get m i j) (xsum (fun p => nth p x false && get m (nth p L 0) j) (length L))) (seq 0 c)).
    destruct (existsb test (allbits (length L))) eqn:E.
    - left. apply existsb_exists in E. destruct E as [x [_ E]]. exists (fun p => nth p x false). intros j Hj. unfold test in E. rewrite forallb_forall in E.
      apply eqb_prop. apply E. apply in_seq. lia.
    - right. intros [u H]. assert (X : existsb test (allbits (length L)) = true).
      { apply existsb_exists. exists (map u (seq 0 (length L))). split; [apply allbits_in; rewrite map_length, seq_length; auto|].
        unfold test. apply forallb_forall. intros j Hj. apply in_seq in Hj. apply eqb_true_iff. rewrite H by lia. apply xsum_ext. intros p Hp. rewrite nth_map_seq; auto. }
      congruence.
  Qed.
  Lemma greedy : forall n, n <= r -> exists L, NoDup L /\ (forall i, In i L -> i < n) /\ indep m L /\ spans L n.
  Proof.
    induction n as [|n IH]; intros Hn.
    - exists []. split; [constructor|]. split; [intros i []|]. split; [|intros i Hi; lia]. intros v Hv _ i. destruct (v i) eqn:E; auto. destruct (Hv i E).
    - destruct IH as [L [N [HL [IL SL]]]]; [lia|]. destruct (span_dec L n) as [D|D].
      + exists L. split; auto. split; [intros i Hi; specialize (HL i Hi); lia|]. split; auto. intros i Hi. destruct (Nat.eq_dec i n) as [->|]; auto. apply SL; lia.
      + exists (n :: L). assert (NI : ~ In n L) by (intros I; specialize (HL n I); lia). split; [constructor; auto|].
        split; [intros i [<-|Hi]; [lia|specialize (HL i Hi); lia]|]. split.
        * intros v Hv Hc. destruct (v n) eqn:E.
          { exfalso. apply D. exists (fun p => v (nth p L 0)). intros j Hj. specialize (Hc j Hj). unfold rowcomb in Hc.
            rewrite (xsum_ext _ (fun i => spread (fun p => v (nth p (n :: L) 0)) (n :: L) i && get m i j)) in Hc.
            - rewrite xsum_spread in Hc; [|constructor; auto|intros i [<-|Hi]; [lia|specialize (HL i Hi); lia]].
              cbn [length] in Hc. rewrite xsum_shift in Hc. cbn [nth] in Hc. rewrite E in Hc. cbn in Hc.
              destruct (get m n j), (xsum (fun p => v (nth p L 0) && get m (nth p L 0) j) (length L)); auto; discriminate.
            - intros i Hi. f_equal. destruct (v i) eqn:V.
              + destruct (In_nth _ _ 0 (Hv i V)) as [p [Hp <-]]. rewrite spread_nth; auto. constructor; auto.
              + destruct (spread _ (n :: L) i) eqn:Z; auto. assert (I := spread_in _ _ _ Z). destruct (In_nth _ _ 0 I) as [p [Hp Ep]]. rewrite <- Ep in Z.
                rewrite spread_nth in Z by (auto; constructor; auto). congruence. }
          { apply IL; auto. intros i Hi. destruct (Hv i Hi) as [<-|]; auto. congruence. }
        * intros i Hi. destruct (Nat.eq_dec i n) as [->|].
          { exists (fun p => Nat.eqb p 0). intros j Hj. cbn [length]. rewrite (xsum_one _ _ 0); [reflexivity|lia|]. intros k Hk N0. destruct k; [congruence|reflexivity]. }
          { destruct (SL i) as [u Hu]; [lia|]. exists (fun p => match p with O => false | S p => u p end). intros j Hj. cbn [length]. rewrite xsum_shift. cbn [nth].
            rewrite Hu by auto. cbn [andb]; rewrite xorb_false_l; reflexivity. }
  Qed.
  Lemma span_ge : forall L, (forall i, In i L -> i < r) -> spans L r -> length own <= length L.
  Proof.
    intros L HL SL. destruct (Nat.leb_spec (length own) (length L)); auto. exfalso.
    (* coefficients of the rows of [m] over [L] *)
    assert (B : exists U : nat -> nat -> bool, forall i, i < r -> forall j, j < c -> get m i j = xsum (fun p => U i p && get m (nth p L 0) j) (length L)).
    { clear - SL. assert (G : forall n, n <= r -> exists U : nat -> nat -> bool, forall i, i < n -> forall j, j < c -> get m i j = xsum (fun p => U i p && get m (nth p L 0) j) (length L)).
      { induction n as [|n IH]; intros Hn; [exists (fun _ _ => false); intros; lia|]. destruct IH as [U HU]; [lia|]. destruct (SL n) as [u Hu]; [lia|].
        exists (fun i => if Nat.eqb i n then u else U i). intros i Hi j Hj. destruct (Nat.eqb_spec i n) as [->|]; [apply Hu; auto|apply HU; auto; lia]. }
      apply G. auto. }
    destruct B as [U HU].
    destruct (kernel_nontrivial (length L) (length own) (fun p t => xsum (fun i => get g t i && U i p) r) H) as [w [[t [Ht Wt]] K]].
    assert (X : w t = false); [|congruence]. apply (m'_indep w); auto. intros j Hj.
    rewrite (xsum_ext _ (fun t => xsum (fun p => (w t && xsum (fun i => get g t i && U i p) r) && get m (nth p L 0) j) (length L))).
    - rewrite xsum_swap. apply xsum_zero. intros p Hp. rewrite xsum_and, K by auto. reflexivity.
    - intros s Hs. rewrite m'_from by (auto; pose proof rk_le; lia).
      rewrite (xsum_ext _ (fun i => xsum (fun p => get g s i && U i p && get m (nth p L 0) j) (length L))).
      + rewrite xsum_swap, <- xsum_andl. apply xsum_ext. intros p _. rewrite xsum_and, andb_assoc. reflexivity.
      + intros i Hi. rewrite (HU i Hi j Hj), <- xsum_andl. apply xsum_ext. intros p _. apply andb_assoc.
  Qed.
  Theorem rank_spec : (exists L, NoDup L /\ (forall i, In i L -> i < r) /\ indep m L /\ length L = length own) /\
    forall L, NoDup L -> (forall i, In i L -> i < r) -> indep m L -> length L <= length own.
  Proof.
    split; [|apply indep_le]. destruct (greedy r) as [L [N [HL [IL SL]]]]; auto. exists L. repeat split; auto.
    assert (A := indep_le L N HL IL). assert (B := span_ge L HL SL). lia.
  Qed.
End Rank.

(** Decision procedures for the well-formedness predicates, used to check that
    the hypotheses of the theorems hold on concrete diagrams. *)
From Coq Require Import Reals ZArith QArith Qcanon List Bool Arith Lia.
From Verif Require Import CNum Base ScalarModel ScalarProofs GraphModel GraphSem SumLemmas GraphProofs GraphOps
  RulesModel RuleLemmas.
Import ListNotations.
Open Scope nat_scope.

Fixpoint nodupb (l : list nat) : bool := match l with [] => true | a :: l => negb (nmem a l) && nodupb l end.
Lemma nodupb_ok : forall l, nodupb l = true -> NoDup l.
Proof.
  induction l as [|a l IH]; simpl; intros H; [constructor|]. apply andb_true_iff in H. destruct H as [H1 H2].
  constructor; auto. apply negb_true_iff in H1. apply nmem_false; auto.
Qed.
Definition eoptb (a b : option etype) : bool :=
  match a, b with None, None => true | Some a, Some b => etype_eqb a b | _, _ => false end.
Lemma eoptb_ok : forall a b, eoptb a b = true -> a = b.
Proof. intros [[]|] [[]|]; simpl; congruence. Qed.
Definition sublb (l m : list nat) : bool := forallb (fun v => nmem v m) l.
Lemma sublb_ok : forall l m, sublb l m = true -> forall v, In v l -> In v m.
Proof. intros l m H v Hv. unfold sublb in H. rewrite forallb_forall in H. apply nmem_spec; auto. Qed.

Definition wfgb (g : graph) : bool :=
  nodupb (vertices g)
  && forallb (fun vd => nodupb (dkeys (snd vd)) && sublb (dkeys (snd vd)) (vertices g)) (gadj g)
  && forallb (fun u => forallb (fun v => eoptb (edge_type g u v) (edge_type g v u)) (vertices g)) (vertices g)
  && sublb (dkeys (gty g)) (vertices g) && sublb (vertices g) (dkeys (gty g)) && nodupb (dkeys (gty g))
  && sublb (dkeys (gphase g)) (vertices g) && sublb (vertices g) (dkeys (gphase g)) && nodupb (dkeys (gphase g))
  && forallb (fun v => Nat.ltb v (gvindex g)) (vertices g).
Lemma wfgb_ok : forall g, wfgb g = true -> wfg g.
Proof.
  intros g H. unfold wfgb in H. rewrite !andb_true_iff in H. destruct H as [[[[[[[[[H1 H2] H3] H4] H5] H6] H7] H8] H9] H10].
  rewrite forallb_forall in H2, H3, H10.
  assert (OUT : forall u v, ~ In v (vertices g) -> edge_type g u v = None).
  { intros u v Hv. unfold edge_type. destruct (dget u (gadj g)) as [d|] eqn:E; auto.
    apply dget_none. intros X. apply Hv. apply dget_in in E. specialize (H2 _ E). apply andb_true_iff in H2.
    eapply sublb_ok; [apply H2|exact X]. }
  assert (OUT2 : forall u v, ~ In u (vertices g) -> edge_type g u v = None).
  { intros u v Hu. unfold edge_type. unfold vertices in Hu. apply dget_none in Hu. rewrite Hu. reflexivity. }
  constructor.
  - apply nodupb_ok; auto.
  - intros u d E. apply dget_in in E. specialize (H2 _ E). apply andb_true_iff in H2. apply nodupb_ok, H2.
  - intros u v. destruct (in_dec Nat.eq_dec u (vertices g)) as [Iu|Iu]; [|rewrite OUT2, OUT; auto].
    destruct (in_dec Nat.eq_dec v (vertices g)) as [Iv|Iv]; [|rewrite OUT, OUT2; auto].
    specialize (H3 u Iu). rewrite forallb_forall in H3. apply eoptb_ok; auto.
  - intros v; split; apply sublb_ok; auto.
  - apply nodupb_ok; auto.
  - intros v; split; apply sublb_ok; auto.
  - apply nodupb_ok; auto.
  - intros v Hv. apply Nat.ltb_lt; auto.
Qed.
Definition in02b (p : Qc) : bool := Qle_bool 0 (this p) && negb (Qle_bool 2 (this p)).
Lemma in02b_ok : forall p, in02b p = true -> in02 p.
Proof.
  intros p H. unfold in02b in H. apply andb_true_iff in H. destruct H as [H1 H2]. split.
  - apply Qle_bool_iff; auto.
  - apply negb_true_iff in H2. apply Qnot_le_lt. intros X. apply Qle_bool_iff in X. congruence.
Qed.
Definition noloopb (g : graph) : bool := forallb (fun v => eoptb (edge_type g v v) None) (vertices g).
Lemma noloopb_ok : forall g, noloopb g = true -> noloop g.
Proof.
  intros g H v. unfold noloopb in H. rewrite forallb_forall in H.
  destruct (in_dec Nat.eq_dec v (vertices g)) as [I|I]; [apply eoptb_ok; auto|].
  unfold edge_type. unfold vertices in I. apply dget_none in I. rewrite I. reflexivity.
Qed.
Definition zxokb (g : graph) : bool :=
  wfgb g && noloopb g && forallb (fun v => negb (vtype_eqb (vty g v) HBOX) && in02b (phase g v)) (vertices g)
  && forallb (fun v => nmem v (vertices g) && isB g v) (ginputs g ++ goutputs g).
Lemma zxokb_ok : forall g, zxokb g = true -> zxok g.
Proof.
  intros g H. unfold zxokb in H. rewrite !andb_true_iff in H. destruct H as [[[H1 H2] H3] H4].
  rewrite forallb_forall in H3, H4. constructor.
  - apply wfgb_ok; auto.
  - apply noloopb_ok; auto.
  - intros v Hv X. specialize (H3 v Hv). rewrite X in H3. discriminate.
  - intros v Hv. specialize (H3 v Hv). apply andb_true_iff in H3. apply in02b_ok, H3.
  - intros v Hv. assert (I : In v (ginputs g ++ goutputs g)) by (apply in_or_app; auto). specialize (H4 v I).
    apply andb_true_iff in H4. destruct H4 as [H4 H5]. split; auto. apply nmem_spec; auto.
Qed.
Definition quarterb (p : Qc) : bool := Z.eqb (Z.modulo 4 (qden p)) 0.
Lemma quarterb_ok : forall p, quarterb p = true -> quarter p.
Proof.
  intros p H. unfold quarterb, qden in H. apply Z.eqb_eq in H. apply Z.mod_divide in H; [|lia]. destruct H as [k Hk].
  exists (Qnum (this p) * k)%Z. apply Qc_is_canon. rewrite this_frac. destruct (this p) as [n d] eqn:E. unfold Qeq. cbn [Qnum Qden] in *. clear E. rewrite <- Z.mul_assoc, <- Hk. reflexivity.
Qed.
Definition allqb (g : graph) : bool := forallb (fun v => quarterb (phase g v)) (vertices g).
Lemma allqb_ok : forall g, allqb g = true -> allph quarter g.
Proof. intros g H v Hv. unfold allqb in H. rewrite forallb_forall in H. apply quarterb_ok; auto. Qed.

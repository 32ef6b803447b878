(** The multigraph backend: histories, and the diagrams where it goes wrong. *)
From Coq Require Import Reals ZArith QArith Qcanon List Bool Arith Lia Permutation.
From Verif Require AlgUse.
From Verif Require Import CNum Base ScalarModel ScalarProofs GraphModel GraphProofs GraphSem SumLemmas GraphOps MultiModel MultiProofs MultiFacts MultiList.
Import ListNotations.
Open Scope C_scope.

(** every store built by calls that return *)
Inductive mreach : heap -> mgraph -> Prop :=
| mr_empty : forall h, mreach h mempty
| mr_vertices : forall h g n, mreach h g -> mreach h (fst (m_add_vertices n g))
| mr_auto : forall h g b, mreach h g -> mreach h (m_set_auto b g)
| mr_type : forall h g v t, mreach h g -> mreach h (m_set_type v t g)
| mr_phase : forall h g v p, mreach h g -> mreach h (m_set_phase v p g)
| mr_add : forall h g h' g' s t ty, mreach h g -> m_add_edge s t ty (h, g) = Ok (h', g') -> mreach h' g'
| mr_remove : forall h g h' g' s t ty, mreach h g -> m_remove_edge s t ty (h, g) = Ok (h', g') -> mreach h' g'
| mr_retype : forall h g h' g' s t ty ty', mreach h g -> In (mkwire s t ty) (m_edges h g) -> m_set_edge_type s t ty ty' (h, g) = Ok (h', g') -> mreach h' g'.

Lemma add_edge_keys : forall s t ty h g x, mwf h g -> m_add_edge s t ty (h, g) = Ok x -> In s (mverts g) /\ In t (mverts g).
Proof.
  intros s t ty h g x W H. unfold m_add_edge in H. cbv zeta in H. inv_bind H. cbn [madj m_with_nedges] in E. destruct (dget s (madj g)) as [d|] eqn:D; [|discriminate]. injection E as <-.
  assert (S : In s (mverts g)) by (apply dget_keys; eauto). split; [exact S|]. inv_bind H. clear H. destruct (dget t d) as [r|] eqn:R.
  - apply (mref_key h g s t r W). unfold mref. rewrite D. exact R.
  - inv_bind E. inv_bind E. unfold m_put in E0, E1. cbn [madj m_with_nedges] in E0. rewrite D in E0. cbn [of_opt bind] in E0. injection E0 as <-. cbn [madj m_with_adj m_with_nedges] in E1.
    destruct (dget t (dset s (dset t (length h) d) (madj g))) as [d'|] eqn:D'; [|discriminate]. apply dget_some_key in D'. apply in_dkeys_dset in D'. destruct D' as [->|D']; [exact S|exact D'].
Qed.
Lemma add_edge_ok : forall s t ty h g h' g', mwf h g -> m_add_edge s t ty (h, g) = Ok (h', g') -> mwf h' g' /\ mverts g' = mverts g /\ mvindex g' = mvindex g.
Proof.
  intros s t ty h g h' g' W H. destruct (add_edge_keys s t ty h g _ W H) as [S T].
  assert (ST : s <> t \/ mauto g && spider g s && spider g t = false).
  { destruct (Nat.eq_dec s t) as [<-|]; [|auto]. right. destruct (mauto g && spider g s && spider g s) eqn:X; [|reflexivity]. apply andb_prop in X. destruct X as [X X2]. apply andb_prop in X. destruct X as [X1 _].
    rewrite (add_loop_raises s ty h g W S X1 X2) in H. discriminate. }
  destruct (add_edge_shape s t ty h g W S T ST) as (h1 & g1 & E & W1 & V1 & _). rewrite E in H. injection H as -> ->. split; [exact W1|]. split; [exact V1|].
  clear - E. unfold m_add_edge in E. cbv zeta in E. repeat inv_bind E.
  assert (PV : forall s t r g g', m_put s t r g = Ok g' -> mvindex g' = mvindex g) by (clear; intros s t r g g' H; unfold m_put in H; inv_bind H; injection H as <-; reflexivity).
  assert (DV : forall s t g g', m_del s t g = Ok g' -> mvindex g' = mvindex g) by (clear; intros s t g g' H; unfold m_del in H; inv_bind H; destruct (dmem t a); [|discriminate]; injection H as <-; reflexivity).
  destruct a0 as [[h2 g2] r2].
  assert (V2 : mvindex g2 = mvindex g). { destruct (dget t a) as [r|]; [injection E1 as <- <- <-; reflexivity|]. inv_bind E1. inv_bind E1. injection E1 as <- <- <-. apply PV in E3. apply PV in E2. rewrite E3, E2. reflexivity. }
  inv_bind E. destruct (mauto g2); [|injection E as <- <-; exact V2]. inv_bind E. inv_bind E.
  match goal with H : (let '(_, _) := ?b in _) = _ |- _ => destruct b as [e3 g3] eqn:B end.
  assert (V3 : mvindex g3 = mvindex g2).
  { destruct (vertex_is_zx_like a1 && vertex_is_zx_like a2); [|injection B as <- <-; reflexivity]. destruct (Nat.eqb s t).
    - unfold m_simp_loop in B. injection B as <- <-. destruct (eh a0 mod 2 =? 1)%Z; reflexivity.
    - unfold m_simp_pair in B. destruct (vtype_eqb a1 a2); injection B as <- <-; reflexivity. }
  destruct (e_empty e3); [|injection E as <- <-; congruence]. inv_bind E. inv_bind E. injection E as <- <-. apply DV in E5. apply DV in E6. congruence.
Qed.
Theorem mreach_ok : forall h g, mreach h g -> mwf h g /\ mfresh g.
Proof.
  intros h g H. induction H.
  - split; [apply mwf_empty|intros v []].
  - destruct IHmreach as [W F]. pose proof (m_add_vertices_ok n h g W F) as X. destruct (m_add_vertices n g) as [g' ids]. cbn [fst]. tauto.
  - destruct IHmreach as [W F]. split; [constructor; apply W|exact F].
  - destruct IHmreach as [W F]. split; [apply m_set_type_ok; exact W|exact F].
  - destruct IHmreach as [W F]. split; [apply m_set_phase_ok; exact W|exact F].
  - destruct IHmreach as [W F]. destruct (add_edge_ok _ _ _ _ _ _ _ W H0) as (W' & V & X). split; [exact W'|]. intros v. rewrite V, X. apply F.
  - destruct IHmreach as [W F]. pose proof (remove_edge_shape s t ty h g W) as X. destruct (mref g s t); [|congruence]. destruct (0 <? ecount (cur h g s t) ty)%nat; [|congruence]. destruct X as (h1 & g1 & E & W' & (V & _ & VI & _) & _). rewrite E in H0. injection H0 as <- <-.
    split; [exact W'|]. intros v. rewrite V, VI. apply F.
  - destruct IHmreach as [W F]. destruct (set_edge_type_list s t ty ty' h g W H0) as (h1 & E & W' & _). rewrite E in H1. injection H1 as <- <-. split; assumption.
Qed.

(** ** two Z spiders *)
Definition mtwo : mgraph := m_set_type 1 ZSP (m_set_type 0 ZSP (fst (m_add_vertices 2 mempty))).
Definition mthen (r : res (heap * mgraph)) (f : heap * mgraph -> res (heap * mgraph)) : heap * mgraph := match r with Ok st => match f st with Ok st' => st' | Err _ => st end | Err _ => ([], mempty) end.
Lemma mtwo_reach : mreach [] mtwo.
Proof. apply mr_type, mr_type, mr_vertices, mr_empty. Qed.
Definition mjoined : heap * mgraph := match m_add_edge 0 1 HADAMARD ([], mtwo) with Ok st => st | Err _ => ([], mempty) end.
Lemma mjoined_reach : mreach (fst mjoined) (snd mjoined).
Proof. eapply (mr_add [] mtwo _ _ 0%nat 1%nat HADAMARD mtwo_reach). vm_compute. reflexivity. Qed.
Lemma mjoined_value : forall b, dval (add_wire 0 1 HADAMARD (mview (fst mjoined) (snd mjoined))) b = C1 + C1.
Proof.
  intros b. set (D := add_wire 0 1 HADAMARD (mview (fst mjoined) (snd mjoined))).
  assert (V : dvs D = [0; 1]%nat) by (vm_compute; reflexivity).
  assert (B0 : dB D 0 = false) by (vm_compute; reflexivity). assert (B1 : dB D 1 = false) by (vm_compute; reflexivity).
  assert (X0 : dX D 0 = false) by (vm_compute; reflexivity). assert (X1 : dX D 1 = false) by (vm_compute; reflexivity).
  assert (P0 : dph D 0 = 0%Qc) by (vm_compute; reflexivity). assert (P1 : dph D 1 = 0%Qc) by (vm_compute; reflexivity).
  assert (N00 : forall e, dcnt D 0 0 e = 0%nat) by (intros []; vm_compute; reflexivity). assert (N11 : forall e, dcnt D 1 1 e = 0%nat) by (intros []; vm_compute; reflexivity).
  assert (NS : dcnt D 0 1 SIMPLE = 0%nat) by (vm_compute; reflexivity). assert (NH : dcnt D 0 1 HADAMARD = 2%nat) by (vm_compute; reflexivity).
  assert (K : dk D = C1). { change (dk D) with (to_number (mscalar (snd mjoined))). replace (mscalar (snd mjoined)) with (s_add_power (-2 * (1 - 1)) scalar_init) by (vm_compute; reflexivity). rewrite add_power_number. change (-2 * (1 - 1))%Z with 0%Z. rewrite sq2p_0. replace (to_number scalar_init) with C1; [ring|]. symmetry. apply AlgUse.scalar_init_number. }
  assert (S : forall v x, (v = 0 \/ v = 1)%nat -> spot D v x = C1).
  { intros v x [-> | ->]; unfold spot, wires; rewrite ?B0, ?B1, ?X0, ?X1, ?P0, ?P1, ?N00, ?N11; cbn [cpow]; unfold ephase; rewrite ?cexp_0; destruct x; ring. }
  assert (I : forall x, dint D x = sq2p (-2)).
  { intros x. unfold dint. rewrite V, K. cbn [cprod pprod]. rewrite !S by auto. unfold wires. rewrite X0, X1, NS, NH. cbn [xorb tog cpow]. rewrite <- (had_sq (x 0%nat) (x 1%nat)). ring. }
  unfold dval. rewrite V. cbn [filter]. rewrite B0, B1. cbn [negb sumv]. rewrite !I.
  transitivity (sq2p (-2) * (sq2p 2 * sq2p 2)); [rewrite sq2p_2; ring|]. rewrite <- !sq2p_add. change (-2 + (2 + 2))%Z with 2%Z. apply sq2p_2.
Qed.
Theorem hopf_scalar_wrong : exists h g h' g' b, mreach h g /\ m_add_edge 0 1 HADAMARD (h, g) = Ok (h', g') /\ dval (mview h' g') b <> dval (add_wire 0 1 HADAMARD (mview h g)) b.
Proof.
  destruct (mreach_ok _ _ mjoined_reach) as [W _].
  destruct (add_edge_value 0 1 HADAMARD (fst mjoined) (snd mjoined) W) as (h' & g' & E & _ & _ & _ & V); [vm_compute; auto|vm_compute; auto|left; discriminate|].
  exists (fst mjoined), (snd mjoined), h', g', (fun _ => false). split; [apply mjoined_reach|]. split; [exact E|]. rewrite V, mjoined_value.
  replace (cancelling (snd mjoined) 0 1 (plus1 HADAMARD (cur (fst mjoined) (snd mjoined) 0 1))) with 2%Z by (vm_compute; reflexivity). change (- (2 - 2 mod 2))%Z with (-2)%Z.
  rewrite <- sq2p_2, <- sq2p_add. change (-2 + 2)%Z with 0%Z. rewrite sq2p_0, sq2p_2. intros X. apply C1_neq_C0. transitivity (C1 + C1 - C1); [ring|]. rewrite <- X. ring.
Qed.
(** num_edges() counts wires that were cancelled *)
Theorem num_edges_wrong : exists h g, mreach h g /\ m_edges h g = [] /\ mnedges g = 2%Z.
Proof.
  destruct (m_add_edge 0 1 HADAMARD mjoined) as [[h g]|e] eqn:E; [|vm_compute in E; discriminate]. exists h, g.
  split; [eapply (mr_add (fst mjoined) (snd mjoined) h g 0%nat 1%nat HADAMARD mjoined_reach); rewrite <- E; reflexivity|]. vm_compute in E. injection E as <- <-. split; vm_compute; reflexivity.
Qed.
Theorem loop_raises_case : exists h g s ty, mreach h g /\ In s (mverts g) /\ m_add_edge s s ty (h, g) = Err KeyError.
Proof. exists [], mtwo, 0%nat, HADAMARD. split; [apply mtwo_reach|]. split; vm_compute; auto. Qed.

(** ** clone shares the Edge objects *)
Theorem m_clone_shares : exists h g h' c', mreach h g /\ m_remove_edge 0 1 HADAMARD (h, m_clone g) = Ok (h', c') /\ m_edges h g = [(0%nat, 1%nat, HADAMARD)] /\ m_edges h' g = [].
Proof.
  destruct (m_remove_edge 0 1 HADAMARD (fst mjoined, m_clone (snd mjoined))) as [[h c]|e] eqn:E; [|vm_compute in E; discriminate]. exists (fst mjoined), (snd mjoined), h, c.
  split; [apply mjoined_reach|]. split; [exact E|]. split; [vm_compute; reflexivity|]. vm_compute in E. injection E as <- <-. vm_compute. reflexivity.
Qed.
(** the clone itself shows what the original shows, except for the automatic simplification *)
Theorem m_clone_same : forall h g, m_edges h (m_clone g) = m_edges h g /\ mview h (m_clone g) = mview h g /\ minputs (m_clone g) = minputs g /\ moutputs (m_clone g) = moutputs g /\ mauto (m_clone g) = true.
Proof. intros h g. repeat split. Qed.

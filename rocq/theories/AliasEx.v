(** Consequences and examples for clones. *)
From Coq Require Import ZArith QArith Qcanon List Bool Arith Lia.
From Verif Require Import CNum Base ScalarModel GraphModel AliasModel AliasProofs AliasFacts.
Import ListNotations.
Local Open Scope nat_scope.

Theorem edit_value : forall s e, made s -> exists x, observe s = Some x /\ match p_edit e x with Ok x' => exists s', a_edit e s = Ok s' /\ observe s' = Some x' | Err er => a_edit e s = Err er end.
Proof. intros s e M. destruct (made_observe s M) as [x O]. exists x. split; [exact O|]. apply made_edit_value; assumption. Qed.
Theorem clone_same : forall H o x, made (H, o) -> observe (H, o) = Some x -> ogr x = [] -> ovt x = [] -> exists H1 c, a_clone (H, o) = Ok (H1, c) /\ observe (H1, c) = observe (H, o).
Proof. intros H o x M O G V. destruct (clone_isolated H o x M O) as (H1 & c & E & _ & O2 & _). exists H1, c. split; [exact E|]. rewrite O2, O. destruct x. cbn in *. subst. reflexivity. Qed.

Fixpoint edits (es : list edit) (s : st) : res st := match es with [] => Ok s | e :: es' => let* s := a_edit e s in edits es' s end.
Lemma edits_made : forall es s s', made s -> edits es s = Ok s' -> made s'.
Proof. induction es as [|e es IH]; intros s s' M E; [injection E as <-; exact M|]. cbn [edits] in E. destruct (a_edit e s) as [s1|] eqn:E1; [|discriminate]. eapply IH; [eapply made_edit; eassumption|exact E]. Qed.
Definition of_res (r : res st) : st := match r with Ok s => s | Err _ => new_obj end.
Definition s_ground : st := of_res (edits [EAddVertices 1; ESetGround 0 true] new_obj).
Definition s_var : st := of_res (edits [EAddVertices 1; EVarType 0 true] new_obj).
Definition s_two : st := of_res (edits [EAddVertices 2; ESetType 0 ZSP; ESetType 1 ZSP; EAddEdge 0 1 HADAMARD] new_obj).
Definition s_data : st := of_res (let* s := edits [EAddVertices 1] new_obj in a_set_vdata 0 7 5 s).
Lemma s_ground_made : made s_ground.
Proof. unfold s_ground. destruct (edits _ new_obj) as [s|e] eqn:E; [eapply edits_made; [apply made_new|exact E]|exact made_new]. Qed.
Lemma s_var_made : made s_var.
Proof. unfold s_var. destruct (edits _ new_obj) as [s|e] eqn:E; [eapply edits_made; [apply made_new|exact E]|exact made_new]. Qed.
Lemma s_two_made : made s_two.
Proof. unfold s_two. destruct (edits _ new_obj) as [s|e] eqn:E; [eapply edits_made; [apply made_new|exact E]|exact made_new]. Qed.
Lemma s_data_made : made s_data.
Proof. unfold s_data. destruct (edits _ new_obj) as [s|e] eqn:E; cbn [bind]; [|exact made_new]. destruct (a_set_vdata 0 7 5 s) as [s'|] eqn:E2; [|exact made_new]. eapply made_vdata; [eapply edits_made; [apply made_new|exact E]|exact E2]. Qed.

Ltac obs_eval s x := destruct (observe s) as [x|] eqn:?; [|exfalso; match goal with E : observe _ = None |- _ => vm_compute in E; discriminate E end].
Theorem clone_grounds : exists H o x H1 c y, made (H, o) /\ observe (H, o) = Some x /\ a_clone (H, o) = Ok (H1, c) /\ observe (H1, c) = Some y /\ ogr x = [0] /\ ogr y = [].
Proof.
  pose proof s_ground_made as M. destruct s_ground as [H o] eqn:ES. destruct (made_observe _ M) as [x O]. destruct (clone_isolated H o x M O) as (H1 & c & E & _ & O2 & _).
  exists H, o, x, H1, c, (mkObs (og x) [] [] (ovd x)). split; [exact M|]. split; [exact O|]. split; [exact E|]. split; [exact O2|]. split; [|reflexivity].
  rewrite <- ES in O. assert (X : option_map ogr (observe s_ground) = Some [0]) by (vm_compute; reflexivity). rewrite O in X. injection X as X. exact X.
Qed.
Theorem clone_vartypes : exists H o x H1 c y, made (H, o) /\ observe (H, o) = Some x /\ a_clone (H, o) = Ok (H1, c) /\ observe (H1, c) = Some y /\ ovt x = [(0, true)] /\ ovt y = [].
Proof.
  pose proof s_var_made as M. destruct s_var as [H o] eqn:ES. destruct (made_observe _ M) as [x O]. destruct (clone_isolated H o x M O) as (H1 & c & E & _ & O2 & _).
  exists H, o, x, H1, c, (mkObs (og x) [] [] (ovd x)). split; [exact M|]. split; [exact O|]. split; [exact E|]. split; [exact O2|]. split; [|reflexivity].
  rewrite <- ES in O. assert (X : option_map ovt (observe s_var) = Some [(0, true)]) by (vm_compute; reflexivity). rewrite O in X. injection X as X. exact X.
Qed.
Theorem clone_vdata : exists H o H1 c H2 c2 x y, made (H, o) /\ a_clone (H, o) = Ok (H1, c) /\ a_set_vdata 0 7 6 (H1, c) = Ok (H2, c2) /\
  observe (H1, o) = Some x /\ observe (H2, o) = Some y /\ ovd x = [(0, [(7, 5%Z)])] /\ ovd y = [(0, [(7, 6%Z)])].
Proof.
  destruct (a_clone s_data) as [s1|] eqn:E1; [|exfalso; vm_compute in E1; discriminate]. destruct (a_set_vdata 0 7 6 s1) as [s2|] eqn:E2; [|exfalso; vm_compute in E1; injection E1 as <-; vm_compute in E2; discriminate].
  assert (X : option_map ovd (observe (fst s1, snd s_data)) = Some [(0, [(7, 5%Z)])] /\ option_map ovd (observe (fst s2, snd s_data)) = Some [(0, [(7, 6%Z)])]).
  { vm_compute in E1. injection E1 as <-. vm_compute in E2. injection E2 as <-. split; vm_compute; reflexivity. }
  destruct X as [X1 X2]. destruct (observe (fst s1, snd s_data)) as [x|] eqn:O1; [|discriminate]. destruct (observe (fst s2, snd s_data)) as [y|] eqn:O2; [|discriminate].
  cbn [option_map] in X1, X2. injection X1 as X1. injection X2 as X2.
  exists (fst s_data), (snd s_data), (fst s1), (snd s1), (fst s2), (snd s2), x, y. rewrite <- !surjective_pairing. split; [exact s_data_made|]. split; [exact E1|]. split; [exact E2|]. split; [exact O1|]. split; [exact O2|]. split; [exact X1|exact X2].
Qed.
Lemma rd_vd_none : forall H v vo l, rd_vd H vo = Some l -> dget v l = None -> dget v vo = None.
Proof.
  intros H v vo. induction vo as [|[w r] vo IH]; intros l E G; [reflexivity|]. cbn [rd_vd] in E. destruct (nth_error H r) as [c|]; [|discriminate]. destruct c; try discriminate. destruct (rd_vd H vo) as [l'|]; [|discriminate]. injection E as <-. cbn [dget] in *. destruct (Nat.eqb v w); [discriminate|]. eapply IH; [reflexivity|exact G].
Qed.
Lemma rd_vd_add : forall H v i vo l, rd_vd H vo = Some l -> dget v vo = None -> rd_vd (H ++ [CVi i]) (dset v (length H) vo) = Some (dset v i l).
Proof.
  intros H v i vo. induction vo as [|[w r] vo IH]; intros l E G; [injection E as <-; cbn [dset rd_vd]; rewrite nth_error_app2, Nat.sub_diag by lia; reflexivity|]. cbn [rd_vd dget dset] in *. destruct (nth_error H r) as [c|] eqn:X; [|discriminate]. destruct c; try discriminate. destruct (rd_vd H vo) as [l'|]; [|discriminate]. injection E as <-.
  destruct (Nat.eqb v w) eqn:W; [discriminate|]. cbn [rd_vd dset]. rewrite W. rewrite nth_error_app1 by (eapply get_lt; exact X). rewrite X, (IH l' eq_refl G). reflexivity.
Qed.
Lemma vdata_fresh_rep : forall v k z H o x F H' o', rep H o x F -> dget v (ovd x) = None -> a_set_vdata v k z (H, o) = Ok (H', o') -> rep H' o' (mkObs (og x) (ogr x) (ovt x) (dset v [(k, z)] (ovd x))) F /\ fr H H' F F.
Proof.
  intros v k z H o x F H' o' R G E. open_rep R vo nr t R0. unfold a_set_vdata in E. assert (EV : nth_error H (o_vd o) = Some (CVo vo)) by cell_at R0 0 0. rewrite EV in E.
  pose proof (rd_vd_none _ _ _ _ (p_vd _ _ _ _ _ _ R0) G) as G'. rewrite G' in E. injection E as <- <-.
  assert (R1 : rep0 (H ++ [CVi [(k, z)]]) o x vo nr t) by (constructor; try apply R0; [apply holds_grow, R0|apply rd_vd_grow, R0]).
  destruct (write_cell (H ++ [CVi [(k, z)]]) o o x (mkObs (og x) (ogr x) (ovt x) (dset v [(k, z)] (ovd x))) vo (dset v (length H) vo) nr t t (firstn 7 (lay o x vo nr t)) _ (o_vd o) _ (CVo (dset v (length H) vo)) R1 eq_refl eq_refl) as [R2 F2]; try discriminate; try apply R1; [apply rd_vd_add; [apply R0|exact G']|].
  split; [exists (dset v (length H) vo), nr, t; split; [exact R2|reflexivity]|]. eapply fr_trans; [|exact F2]. split; [rewrite app_length; lia|]. split; [|auto]. intros r L _. apply nth_error_app1. exact L.
Qed.
Theorem clone_vdata_fresh : forall H o x H1 c v k z H2 c2, made (H, o) -> observe (H, o) = Some x -> a_clone (H, o) = Ok (H1, c) -> dget v (ovd x) = None ->
  a_set_vdata v k z (H1, c) = Ok (H2, c2) -> observe (H2, o) = Some x /\ observe (H2, c2) = Some (mkObs (og x) [] [] (dset v [(k, z)] (ovd x))).
Proof.
  intros H o x H1 c v k z H2 c2 M O E G V. destruct (made_rep _ M) as (x0 & F & R). cbn [fst snd] in R. pose proof (rep_observe _ _ _ _ R) as O'. rewrite O in O'. injection O' as <-.
  destruct (clone_spec H o x F R) as (H1' & c' & E' & F1 & F2 & R1 & R2 & D). rewrite E in E'. injection E' as <- <-.
  destruct (vdata_fresh_rep v k z H1 c (mkObs (og x) [] [] (ovd x)) F2 H2 c2 R2 G V) as [R2' FR]. destruct (rep_frame H1 H2 c _ F2 F2 o x F1 R2 R1) as [R1' _]; [intros r I J; exact (D r J I)|exact FR|].
  split; eapply rep_observe; eassumption.
Qed.

Definition alias_hist : list (bool * edit) := [(true, ERemoveVertices [0]); (false, EAddVertices 1); (true, EAddToPhase 1 (Qcz 2)); (false, EAddToPhase 0 (Qcz 1))].
Theorem alias_case : exists H o x y1 y2, made (H, o) /\ observe (H, o) = Some x /\ prun (own false alias_hist) x = Ok y1 /\ prun (own true alias_hist) (mkObs (og x) [] [] (ovd x)) = Ok y2 /\
  vertices (og x) = [0; 1] /\ vertices (og y1) = [0; 1; 2] /\ phase (og y1) 0 = Qcz 1 /\ vertices (og y2) = [1] /\ phase (og y2) 1 = 0%Qc.
Proof.
  pose proof s_two_made as M. destruct (made_observe _ M) as [x O].
  assert (V : match observe s_two with Some x => match prun (own false alias_hist) x, prun (own true alias_hist) (mkObs (og x) [] [] (ovd x)) with Ok y1, Ok y2 => vertices (og x) = [0; 1] /\ vertices (og y1) = [0; 1; 2] /\ phase (og y1) 0 = Qcz 1 /\ vertices (og y2) = [1] /\ phase (og y2) 1 = 0%Qc | _, _ => False end | None => False end).
  { vm_compute. repeat split. all: apply Qc_is_canon; reflexivity. }
  rewrite O in V. destruct (prun (own false alias_hist) x) as [y1|] eqn:P1; [|contradiction]. destruct (prun (own true alias_hist) (mkObs (og x) [] [] (ovd x))) as [y2|] eqn:P2; [|contradiction].
  exists (fst s_two), (snd s_two), x, y1, y2. rewrite <- surjective_pairing. split; [exact M|]. split; [exact O|]. split; [exact P1|]. split; [exact P2|exact V].
Qed.

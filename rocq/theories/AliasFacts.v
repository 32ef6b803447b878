(** The methods of a graph object, histories of edits on a graph and its clone. *)
From Coq Require Import ZArith QArith Qcanon List Bool Arith Lia.
From Verif Require Import CNum Base ScalarModel GraphModel AliasModel AliasProofs.
Import ListNotations.
Local Open Scope nat_scope.

(** ** the edits of a graph as a value *)
Definition lift (f : graph -> res graph) (x : obs) : res obs := let* g := f (og x) in Ok (mkObs g (ogr x) (ovt x) (ovd x)).
Definition p_edit (e : edit) (x : obs) : res obs :=
  match e with
  | EAddVertices n => lift (fun g => Ok (fst (add_vertices n g))) x
  | EAddVertexIndexed v => lift (add_vertex_indexed v) x
  | EAddEdges es et => lift (add_edges es et) x
  | EAddEdge u v et => lift (add_edge u v et) x
  | ERemoveVertices vs =>
    let* g := remove_vertices vs (og x) in
    Ok (mkObs g (filter (fun u => negb (existsb (Nat.eqb u) vs)) (ogr x)) (ovt x) (fold_left (fun d v => ddel v d) vs (ovd x)))
  | ERemoveEdges es => lift (remove_edges es) x
  | ESetEdgeType u v et => lift (set_edge_type u v et) x
  | ESetType v t => lift (fun g => Ok (set_type v t g)) x
  | ESetPhase v p => lift (fun g => Ok (set_phase v p g)) x
  | EAddToPhase v p => lift (fun g => Ok (add_to_phase v p g)) x
  | ESetQubit v q => lift (fun g => Ok (set_qubit v q g)) x
  | ESetRow v r => lift (fun g => Ok (set_row v r g)) x
  | ESetInputs l => lift (fun g => Ok (set_inputs l g)) x
  | ESetOutputs l => lift (fun g => Ok (set_outputs l g)) x
  | EScalar f => lift (fun g => Ok (on_scalar f g)) x
  | ESetGround v b => Ok (mkObs (og x) (if b then set_add v (ogr x) else set_discard v (ogr x)) (ovt x) (ovd x))
  | EVarType v b => Ok (mkObs (og x) (ogr x) (dset v b (ovt x)) (ovd x))
  end.

Ltac trivobj := apply sim_obj; [intros []; repeat split|intros []; repeat split|intros [] [] ? ? ? ?; cbn in *; subst; repeat split].
Lemma sim_ne : forall k, sim (on_obj (fun o => o_with_nedges (o_nedges o + k)%Z o)) (q_g (fun g => with_nedges (gnedges g + k)%Z g)).
Proof. intros k. trivobj. Qed.
Lemma sim_ne1 : forall k, sim (on_obj (fun o => o_with_nedges (o_nedges o - k)%Z o)) (q_g (fun g => with_nedges (gnedges g - k)%Z g)).
Proof. intros k. trivobj. Qed.
Lemma sim_in : forall f, sim (on_obj (fun o => o_with_in (f (o_in o)) o)) (q_g (fun g => set_inputs (f (ginputs g)) g)).
Proof. intros k. trivobj. Qed.
Lemma sim_out : forall f, sim (on_obj (fun o => o_with_out (f (o_out o)) o)) (q_g (fun g => set_outputs (f (goutputs g)) g)).
Proof. intros k. trivobj. Qed.
Lemma sim_vx : forall n, sim (on_obj (o_with_vindex n)) (q_g (with_vindex n)).
Proof. intros k. trivobj. Qed.
Lemma sim_vxp : forall n, sim (on_obj (fun o => o_with_vindex (o_vindex o + n) o)) (q_g (fun g => with_vindex (gvindex g + n) g)).
Proof. intros k. trivobj. Qed.
Lemma sim_vxi : forall v, sim (on_obj (fun o => if Nat.leb (o_vindex o) v then o_with_vindex (v + 1) o else o)) (q_g (fun g => if Nat.leb (gvindex g) v then with_vindex (v + 1) g else g)).
Proof.
  intros v. apply sim_obj.
  - intros o. destruct (Nat.leb (o_vindex o) v); repeat split.
  - intros g. destruct (Nat.leb (gvindex g) v); repeat split.
  - intros o g E1 E2 E3 E4. rewrite E1. destruct (Nat.leb (gvindex g) v); cbn; repeat split; assumption.
Qed.
Lemma obs_eta : forall x, mkObs (og x) (ogr x) (ovt x) (ovd x) = x.
Proof. intros []. reflexivity. Qed.

(** ** the methods *)
Lemma sim_add_one : forall v, sim (a_add_one v) (lift (fun g => Ok (add_one_vertex v g))).
Proof.
  intros v. unfold a_add_one. eapply sim_ext; [apply (sim_bind _ _ (fun s => let* s := on_ty (dset v BOUNDARY) s in on_qc o_ph (dset v 0%Qc) s) _ (sim_new v) (sim_bind _ _ _ _ (sim_ty _) (sim_ph _)))|]. intros x. reflexivity.
Qed.
Lemma lift_foldM : forall B (f : graph -> B -> res graph) l x, foldM (fun x b => lift (fun g => f g b) x) l x = lift (foldM f l) x.
Proof.
  intros B f l. induction l as [|b l IH]; intros x; cbn [foldM]; unfold lift; cbn [bind]; [rewrite obs_eta; reflexivity|].
  destruct (f (og x) b) as [g|e]; cbn [bind]; [|reflexivity]. rewrite IH. unfold lift. cbn [og ogr ovt ovd]. reflexivity.
Qed.
Lemma foldM_ok : forall A B (f : A -> B -> A) l a, foldM (fun a b => Ok (f a b)) l a = Ok (fold_left f l a).
Proof. intros A B f l. induction l as [|b l IH]; intros a; [reflexivity|]. cbn [foldM bind fold_left]. apply IH. Qed.
Lemma sim_add_vertices : forall n, sim (a_add_vertices n) (lift (fun g => Ok (fst (add_vertices n g)))).
Proof.
  intros n H o x F R. unfold a_add_vertices. cbn [snd].
  assert (V : o_vindex o = gvindex (og x)) by (destruct R as (vo & nr & t & R0 & _); apply R0). rewrite V.
  pose proof (sim_bind _ _ _ _ (sim_foldM _ (fun s v => a_add_one v s) (fun x v => lift (fun g => Ok (add_one_vertex v g)) x) (fun b => sim_add_one b) (seq (gvindex (og x)) n)) (sim_vxp n) H o x F R) as S.
  cbv beta in S. rewrite (lift_foldM _ (fun g v => Ok (add_one_vertex v g))) in S. unfold lift in S |- *. rewrite foldM_ok in S. cbn [bind] in S. unfold q_g, xg in S. cbn [og ogr ovt ovd] in S.
  assert (VX : forall l g, gvindex (fold_left (fun g v => add_one_vertex v g) l g) = gvindex g) by (induction l as [|v l IH]; intros g; [reflexivity|]; cbn [fold_left]; rewrite IH; reflexivity).
  rewrite VX in S. exact S.
Qed.
Lemma dmem_keys : forall A v (d : dict A), existsb (Nat.eqb v) (dkeys d) = dmem v d.
Proof. intros A v d. unfold dmem. induction d as [|[w a] d IH]; [reflexivity|]. cbn [dkeys map fst existsb dget]. destruct (Nat.eqb v w); [reflexivity|]. exact IH. Qed.
Lemma sim_add_vertex_indexed : forall v, sim (a_add_vertex_indexed v) (lift (add_vertex_indexed v)).
Proof.
  intros v. unfold a_add_vertex_indexed. eapply sim_ext.
  - eapply (sim_read _ _ _ (fun ks s => if existsb (Nat.eqb v) ks then Err ValueError else let* s := on_obj (fun o => if Nat.leb (o_vindex o) v then o_with_vindex (v + 1) o else o) s in a_add_one v s) _ reads_keys).
    intros y. apply sim_if; [apply sim_err|]. apply (sim_bind _ _ _ _ (sim_vxi v) (sim_add_one v)).
  - intros x. cbn [bind]. unfold lift, add_vertex_indexed. rewrite dmem_keys. destruct (dmem v (gadj (og x))); reflexivity.
Qed.
Lemma lift_set : forall u v et x, (let* x1 := q_nb u (dset v et) x in q_nb v (dset u et) x1) = lift (set_edge_type u v et) x.
Proof.
  intros u v et x. unfold q_nb, lift, set_edge_type, adj_set. destruct (dget u (gadj (og x))) as [d|]; cbn [bind]; [|reflexivity]. cbn [xg og gadj with_adj]. destruct (dget v (dset u (dset v et d) (gadj (og x)))) as [d2|]; cbn [bind]; reflexivity.
Qed.
Lemma sim_set_edge_type : forall u v et, sim (a_set_edge_type u v et) (lift (set_edge_type u v et)).
Proof. intros u v et. eapply sim_ext; [apply (sim_bind _ _ _ _ (sim_nb u (dset v et)) (sim_nb v (dset u et)))|]. intros x. apply lift_set. Qed.
Lemma sim_lift_bind : forall p1 f1 p2 f2, sim p1 (lift f1) -> sim p2 (lift f2) -> sim (fun s => let* s := p1 s in p2 s) (lift (fun g => let* g := f1 g in f2 g)).
Proof. intros p1 f1 p2 f2 S1 S2. eapply sim_ext; [apply (sim_bind _ _ _ _ S1 S2)|]. intros x. unfold lift. destruct (f1 (og x)) as [g|e]; cbn [bind og ogr ovt ovd]; reflexivity. Qed.
Lemma sim_lift_q : forall p f, sim p (q_g f) -> sim p (lift (fun g => Ok (f g))).
Proof. intros p f S. eapply sim_ext; [exact S|]. intros x. reflexivity. Qed.
Lemma sim_lift_fold : forall B (p : st -> B -> res st) (f : graph -> B -> res graph), (forall b, sim (fun s => p s b) (lift (fun g => f g b))) -> forall l, sim (foldM p l) (lift (foldM f l)).
Proof. intros B p f S l. eapply sim_ext; [apply (sim_foldM _ p (fun x b => lift (fun g => f g b) x) S l)|]. intros x. apply lift_foldM. Qed.
Lemma sim_lift_ext : forall p f f', sim p (lift f) -> (forall g, f g = f' g) -> sim p (lift f').
Proof. intros p f f' S E. eapply sim_ext; [exact S|]. intros x. unfold lift. rewrite E. reflexivity. Qed.
Lemma sim_add_edges : forall es et, sim (a_add_edges es et) (lift (add_edges es et)).
Proof.
  intros es et. unfold a_add_edges, add_edges. apply sim_lift_fold. intros [u v]. eapply sim_lift_ext; [apply (sim_lift_bind _ _ _ _ (sim_lift_q _ _ (sim_ne 1)) (sim_set_edge_type u v et))|]. intros g. reflexivity.
Qed.
Lemma sim_a_del : forall u v, sim (a_del u v) (lift (fun g => let* a := adj_del u v (gadj g) in Ok (with_adj a g))).
Proof.
  intros u v. unfold a_del. eapply sim_ext.
  - apply (sim_read _ _ _ (fun d s => if dmem v d then on_nb u (ddel v) s else Err KeyError) (fun d x => if dmem v d then q_nb u (ddel v) x else Err KeyError) (reads_nb u)). intros y. apply sim_if; [apply sim_nb|apply sim_err].
  - intros x. unfold lift, adj_del, q_nb. destruct (dget u (gadj (og x))) as [d|]; cbn [of_opt bind]; [|reflexivity]. destruct (dmem v d); reflexivity.
Qed.
Lemma sim_remove_edge : forall u v, sim (a_remove_edge u v) (lift (remove_edge u v)).
Proof.
  intros u v. eapply sim_lift_ext; [apply (sim_lift_bind _ _ _ _ (sim_a_del u v) (sim_lift_bind _ _ _ _ (sim_a_del v u) (sim_lift_q _ _ (sim_ne1 1))))|].
  intros g. unfold remove_edge. destruct (adj_del u v (gadj g)) as [a|e]; cbn [bind]; [|reflexivity]. cbn [gadj with_adj]. destruct (adj_del v u a); reflexivity.
Qed.
Lemma sim_remove_edges : forall es, sim (a_remove_edges es) (lift (remove_edges es)).
Proof. intros es. apply sim_lift_fold. intros [u v]. apply sim_remove_edge. Qed.
Lemma sim_add_to_phase : forall v p, sim (a_add_to_phase v p) (lift (fun g => Ok (add_to_phase v p g))).
Proof.
  intros v p. unfold a_add_to_phase. eapply sim_ext; [eapply (sim_read _ _ _ (fun d s => on_qc o_ph (dset v (qmod2 ((match dget v d with Some q => q | None => 1%Qc end) + p)%Qc)) s) _ reads_ph); intros d; apply sim_ph|]. intros x. reflexivity.
Qed.
Lemma sim_add_edge : forall u v et, sim (a_add_edge u v et) (lift (add_edge u v et)).
Proof.
  intros u v et H o x F R. pose proof (reads_nb u H o x F R) as RN. pose proof (reads_ty H o x F R) as RT. unfold a_add_edge, lift, add_edge. rewrite RN.
  destruct (dget u (gadj (og x))) as [d|]; cbn [of_opt bind]; [|reflexivity]. destruct (dget v d) as [et1|].
  - rewrite RT. cbn [bind]. unfold vtype_r. destruct (dget u (gty (og x))) as [t1|]; cbn [of_opt bind]; [|reflexivity]. destruct (dget v (gty (og x))) as [t2|]; cbn [of_opt bind]; [|reflexivity].
    destruct (vertex_is_zx_like t1 && vertex_is_zx_like t2); cbn [bind]; [|reflexivity].
    destruct (if Bool.eqb (vertex_is_z_like t1) (vertex_is_z_like t2) then (SIMPLE, HADAMARD) else (HADAMARD, SIMPLE)) as [fuse hopf].
    destruct (etype_eqb et fuse && etype_eqb et1 fuse); [cbn [bind]; rewrite obs_eta; apply sim_ret; exact R|].
    destruct ((etype_eqb et fuse && etype_eqb et1 hopf) || (etype_eqb et hopf && etype_eqb et1 fuse)).
    + exact (sim_lift_bind _ _ _ _ (sim_set_edge_type u v fuse) (sim_lift_bind _ _ _ _ (sim_add_to_phase u 1%Qc) (sim_lift_q _ _ (sim_sc (s_add_power (-1))))) H o x F R).
    + destruct (etype_eqb et hopf && etype_eqb et1 hopf); [|reflexivity]. exact (sim_lift_bind _ _ _ _ (sim_remove_edge u v) (sim_lift_q _ _ (sim_sc (s_add_power (-2)))) H o x F R).
  - exact (sim_lift_bind _ _ _ _ (sim_lift_q _ _ (sim_ne 1)) (sim_set_edge_type u v et) H o x F R).
Qed.
Definition p_remove_one (v : nat) (x : obs) : res obs :=
  let* g := remove_one_vertex v (og x) in Ok (mkObs g (filter (fun u => negb (Nat.eqb u v)) (ogr x)) (ovt x) (ddel v (ovd x))).
Definition inner_loop (v : nat) (l : list nat) (g : graph) : res graph :=
  foldM (fun g v1 => let* a1 := adj_del v v1 (gadj g) in let* a2 := adj_del v1 v a1 in Ok (with_adj a2 (with_nedges (gnedges g - 1)%Z g))) l g.
Lemma sim_inner : forall v l, sim (foldM (fun s v1 => let* s := a_del v v1 s in let* s := a_del v1 v s in on_obj (fun o => o_with_nedges (o_nedges o - 1)%Z o) s) l) (lift (inner_loop v l)).
Proof.
  intros v l. apply sim_lift_fold. intros w. eapply sim_lift_ext; [apply (sim_lift_bind _ _ _ _ (sim_a_del v w) (sim_lift_bind _ _ _ _ (sim_a_del w v) (sim_lift_q _ _ (sim_ne1 1))))|].
  intros g. cbv beta. destruct (adj_del v w (gadj g)) as [a|e]; cbn [bind]; [|reflexivity]. cbn [gadj with_adj]. destruct (adj_del w v a); reflexivity.
Qed.
Lemma sim_remove_one : forall v, sim (a_remove_one v) (p_remove_one v).
Proof.
  intros v. unfold a_remove_one.
  pose (tail := fun s => let* s := del_nb v s in let* s := on_ty (ddel v) s in let* s := on_qc o_ph (ddel v) s in
      let* s := on_obj (fun o => o_with_in (filter (fun u => negb (Nat.eqb u v)) (o_in o)) o) s in let* s := on_obj (fun o => o_with_out (filter (fun u => negb (Nat.eqb u v)) (o_out o)) o) s in
      let* s := on_qc o_q (ddel v) s in let* s := on_qc o_r (ddel v) s in let* s := on_gr (filter (fun u => negb (Nat.eqb u v))) s in on_vo (ddel v) s).
  assert (TAIL : exists q, sim tail q /\ forall x, q x = Ok (mkObs (with_rindex (ddel v (grindex (og x))) (with_qindex (ddel v (gqindex (og x))) (set_outputs (filter (fun u => negb (Nat.eqb u v)) (goutputs (og x))) (set_inputs (filter (fun u => negb (Nat.eqb u v)) (ginputs (og x))) (with_phase (ddel v (gphase (og x))) (with_ty (ddel v (gty (og x))) (with_adj (ddel v (gadj (og x))) (og x)))))))) (filter (fun u => negb (Nat.eqb u v)) (ogr x)) (ovt x) (ddel v (ovd x)))).
  { eexists. split; [exact (sim_bind _ _ _ _ (sim_del v) (sim_bind _ _ _ _ (sim_ty (ddel v)) (sim_bind _ _ _ _ (sim_ph (ddel v)) (sim_bind _ _ _ _ (sim_in _) (sim_bind _ _ _ _ (sim_out _) (sim_bind _ _ _ _ (sim_q (ddel v)) (sim_bind _ _ _ _ (sim_r (ddel v)) (sim_bind _ _ _ _ (sim_gr _) (sim_vo_del v)))))))))|]. intros x. reflexivity. }
  destruct TAIL as (q & TAIL & TE).
  eapply sim_ext.
  - assert (S1 : forall ph : dict Qc, sim (fun s => if negb (dmem v ph) then Err KeyError else tail s) (fun x => if negb (dmem v ph) then Err KeyError else q x)) by (intros ph; apply sim_if; [apply sim_err|exact TAIL]).
    pose proof (sim_read _ _ _ _ _ reads_ph S1) as S2.
    assert (S3 : forall ty : dict vtype, sim (fun s => if negb (dmem v ty) then Err KeyError else let* ph := get_ph s in if negb (dmem v ph) then Err KeyError else tail s) (fun x => if negb (dmem v ty) then Err KeyError else let* ph := Ok (gphase (og x)) in if negb (dmem v ph) then Err KeyError else q x)) by (intros ty; apply sim_if; [apply sim_err|exact S2]).
    pose proof (sim_read _ _ _ _ _ reads_ty S3) as S4.
    exact (sim_read _ _ _ _ _ (reads_nb v) (fun d => sim_bind _ _ _ _ (sim_inner v (dkeys d)) S4)).
  - intros x. unfold p_remove_one, remove_one_vertex, neighbors_r. destruct (dget v (gadj (og x))) as [d|]; cbn [of_opt bind]; [|reflexivity]. unfold lift at 1. fold (inner_loop v (dkeys d) (og x)). destruct (inner_loop v (dkeys d) (og x)) as [g|e]; cbn [bind og]; [|reflexivity].
    destruct (negb (dmem v (gty g))); [reflexivity|]. destruct (negb (dmem v (gphase g))); [reflexivity|]. rewrite TE. reflexivity.
Qed.
Lemma p_remove_fold : forall vs x, foldM (fun x v => p_remove_one v x) vs x =
  let* g := foldM (fun g v => remove_one_vertex v g) vs (og x) in Ok (mkObs g (filter (fun u => negb (existsb (Nat.eqb u) vs)) (ogr x)) (ovt x) (fold_left (fun d v => ddel v d) vs (ovd x))).
Proof.
  induction vs as [|v vs IH]; intros x; cbn [foldM].
  - cbn [bind fold_left existsb negb]. assert (E : forall l : list nat, filter (fun _ => true) l = l) by (induction l as [|a l IH]; [reflexivity|cbn [filter]; rewrite IH; reflexivity]). rewrite E, obs_eta. reflexivity.
  - unfold p_remove_one at 1. destruct (remove_one_vertex v (og x)) as [g|e]; cbn [bind]; [|reflexivity]. rewrite IH. cbn [og ogr ovt ovd]. destruct (foldM (fun g0 v0 => remove_one_vertex v0 g0) vs g) as [g'|e]; cbn [bind]; [|reflexivity].
    cbn [fold_left]. f_equal. f_equal. induction (ogr x) as [|u l IHl]; [reflexivity|]. cbn [filter existsb]. destruct (Nat.eqb u v); cbn [negb orb]; [exact IHl|]. cbn [filter]. destruct (existsb (Nat.eqb u) vs); cbn [negb]; rewrite IHl; reflexivity.
Qed.
Lemma sim_remove_vertices : forall vs, sim (a_remove_vertices vs) (p_edit (ERemoveVertices vs)).
Proof.
  intros vs. unfold a_remove_vertices. eapply sim_ext.
  - apply (sim_bind _ _ _ _ (sim_foldM _ (fun s v => a_remove_one v s) (fun x v => p_remove_one v x) sim_remove_one vs) (sim_read _ _ _ (fun ks s => on_obj (o_with_vindex (list_max ks + 1)) s) _ reads_keys (fun ks => sim_vx _))).
  - intros x. cbv beta. rewrite p_remove_fold. cbn [p_edit]. unfold remove_vertices. destruct (foldM (fun g v => remove_one_vertex v g) vs (og x)) as [g|e]; cbn [bind]; reflexivity.
Qed.
Lemma sim_edit : forall e, sim (a_edit e) (p_edit e).
Proof.
  intros [n|v|es et|u v et|vs|es|u v et|v t|v p|v p|v q|v r|l|l|f|v b|v b]; cbn [a_edit p_edit].
  - apply sim_add_vertices.
  - apply sim_add_vertex_indexed.
  - apply sim_add_edges.
  - apply sim_add_edge.
  - apply sim_remove_vertices.
  - apply sim_remove_edges.
  - apply sim_set_edge_type.
  - apply sim_lift_q, sim_ty.
  - apply sim_lift_q, sim_ph.
  - apply sim_add_to_phase.
  - apply sim_lift_q, sim_q.
  - apply sim_lift_q, sim_r.
  - apply sim_lift_q, (sim_in (fun _ => l)).
  - apply sim_lift_q, (sim_out (fun _ => l)).
  - apply sim_lift_q, sim_sc.
  - destruct b; eapply sim_ext; try apply sim_gr; intros x; reflexivity.
  - eapply sim_ext; [apply sim_vt|]. intros x. reflexivity.
Qed.

(** ** observation *)
Lemma rd_in_val : forall H t, holds H (t_cells t) -> rd_in H (t_adj t) = Some (t_val t).
Proof.
  intros H t. induction t as [|[[v r] d] t IH]; intros HH; [reflexivity|]. cbn [t_adj t_val map rd_in fst snd]. rewrite (HH r (CNb d)) by (left; reflexivity). fold (t_adj t) (t_val t). rewrite IH by (intros r' c I; apply HH; right; exact I). reflexivity.
Qed.
Lemma rep_observe : forall H o x F, rep H o x F -> observe (H, o) = Some x.
Proof.
  intros H o x F R. open_rep R vo nr t R0. unfold observe.
  rewrite (p_lay _ _ _ _ _ _ R0 (o_adj o) (CAdj (t_adj t))) by (unfold lay; simpl; tauto). rewrite (p_lay _ _ _ _ _ _ R0 (o_ty o) (CTy (gty (og x)))) by (unfold lay; simpl; tauto).
  rewrite (p_lay _ _ _ _ _ _ R0 (o_ph o) (CQc (gphase (og x)))) by (unfold lay; simpl; tauto). rewrite (p_lay _ _ _ _ _ _ R0 (o_q o) (CQc (gqindex (og x)))) by (unfold lay; simpl; tauto). rewrite (p_lay _ _ _ _ _ _ R0 (o_r o) (CQc (grindex (og x)))) by (unfold lay; simpl; tauto).
  rewrite (p_lay _ _ _ _ _ _ R0 (o_gr o) (CSet (ogr x))) by (unfold lay; simpl; tauto). rewrite (p_lay _ _ _ _ _ _ R0 (o_vt o) (CVars (ovt x))) by (unfold lay; simpl; tauto). rewrite (p_lay _ _ _ _ _ _ R0 (o_vd o) (CVo vo)) by (unfold lay; simpl; tauto).
  rewrite (p_lay _ _ _ _ _ _ R0 (o_sc o) (CSc (power2 (gscalar (og x))) (sphase (gscalar (og x))) nr (floatfactor (gscalar (og x))) (is_unknown (gscalar (og x))) (is_zero (gscalar (og x))))) by (unfold lay; simpl; tauto).
  rewrite (p_lay _ _ _ _ _ _ R0 nr (CList (phasenodes (gscalar (og x))))) by (unfold lay; simpl; tauto).
  rewrite rd_in_val by (intros r c I; apply (p_lay _ _ _ _ _ _ R0); rewrite lay_base; apply in_app_iff; right; exact I).
  rewrite (p_vd _ _ _ _ _ _ R0), (p_vx _ _ _ _ _ _ R0), (p_ne _ _ _ _ _ _ R0), (p_i _ _ _ _ _ _ R0), (p_o _ _ _ _ _ _ R0), <- (p_adj _ _ _ _ _ _ R0).
  destruct x as [[a vx ne ty ph q r i ou [pw sp nodes fl un ze]] gr vt vd]. reflexivity.
Qed.
Lemma not_vi : forall o x vo nr t r c d, In (r, c) (lay o x vo nr t) -> c <> CVi d.
Proof. intros o x vo nr t r c d I ->. rewrite lay_base in I. apply in_app_iff in I. destruct I as [I|I]; [unfold base in I; simpl in I; intuition discriminate|]. unfold t_cells in I. apply in_map_iff in I. destruct I as [z [E _]]. discriminate E. Qed.
Lemma rep_lt : forall H o x F r, rep H o x F -> In r F -> r < length H /\ forall d, nth_error H r <> Some (CVi d).
Proof.
  intros H o x F r R I. open_rep R vo nr t R0. split; [eapply lay_lt; eassumption|]. intros d E. apply in_map_iff in I. destruct I as [[r' c] [X I]]. cbn [fst] in X. subst r'. pose proof (p_lay _ _ _ _ _ _ R0 r c I) as Y. eapply not_vi; [exact I|]. rewrite Y in E. injection E as E. exact E.
Qed.
(** another object is not affected *)
Lemma rep_frame : forall H H' o1 x1 F1 F1' o2 x2 F2, rep H o1 x1 F1 -> rep H o2 x2 F2 -> (forall r, In r F1 -> ~ In r F2) -> fr H H' F1 F1' -> rep H' o2 x2 F2 /\ forall r, In r F1' -> ~ In r F2.
Proof.
  intros H H' o1 x1 F1 F1' o2 x2 F2 R1 R2 D (L & U & N). split.
  - pose proof (fun r => rep_lt _ _ _ _ r R1) as NV. open_rep R2 vo nr t R0. exists vo, nr, t. split; [|reflexivity]. constructor; try apply R0.
    + intros r c I. assert (IF : In r (map fst (lay o2 x2 vo nr t))) by (apply in_map_iff; exists (r, c); auto). rewrite U; [apply R0; exact I|eapply lay_lt; eassumption|intros X; exact (D r X IF)].
    + pose proof (p_vd _ _ _ _ _ _ R0) as E. revert E. generalize (ovd x2). clear R0 D. induction vo as [|[v r] vo IH]; intros l E; [exact E|]. cbn [rd_vd] in *. destruct (nth_error H r) as [c|] eqn:X; [|discriminate]. destruct c; try discriminate. rewrite U; [|eapply get_lt; exact X|intros Y; destruct (NV r Y) as [_ Z]; exact (Z _ X)].
      rewrite X. destruct (rd_vd H vo) as [l'|]; [|discriminate]. rewrite (IH l' eq_refl). exact E.
  - intros r I J. apply N in I. destruct I as [I|I]; [exact (D r I J)|]. destruct (rep_lt _ _ _ _ r R2 J). lia.
Qed.

(** ** histories on two objects *)
Definition step2 (s : cells * obj * obj) (be : bool * edit) : res (cells * obj * obj) :=
  let '(H, o1, o2) := s in let (b, e) := be in
  if b then let* y := a_edit e (H, o2) in Ok (fst y, o1, snd y) else let* y := a_edit e (H, o1) in Ok (fst y, snd y, o2).
Definition run2 (hs : list (bool * edit)) (s : cells * obj * obj) : res (cells * obj * obj) := foldM step2 hs s.
Definition own (b : bool) (hs : list (bool * edit)) : list edit := map snd (filter (fun be => Bool.eqb (fst be) b) hs).
Definition prun (es : list edit) (x : obs) : res obs := foldM (fun x e => p_edit e x) es x.
Definition sep (H : cells) (o1 o2 : obj) (x1 x2 : obs) : Prop := exists F1 F2, rep H o1 x1 F1 /\ rep H o2 x2 F2 /\ forall r, In r F1 -> ~ In r F2.
Lemma run2_spec : forall hs H o1 o2 x1 x2, sep H o1 o2 x1 x2 ->
  match prun (own false hs) x1, prun (own true hs) x2 with
  | Ok y1, Ok y2 => exists H' o1' o2', run2 hs (H, o1, o2) = Ok (H', o1', o2') /\ sep H' o1' o2' y1 y2
  | _, _ => exists e, run2 hs (H, o1, o2) = Err e
  end.
Proof.
  induction hs as [|[b e] hs IH]; intros H o1 o2 x1 x2 S; [exists H, o1, o2; split; [reflexivity|exact S]|].
  destruct S as (F1 & F2 & R1 & R2 & D). destruct b; cbn [own filter fst Bool.eqb map snd]; fold (own false hs); fold (own true hs); unfold run2; cbn [foldM step2]; unfold prun; cbn [foldM].
  - pose proof (sim_edit e H o2 x2 F2 R2) as SE. destruct (p_edit e x2) as [x2'|er]; cbn [bind].
    + destruct SE as (H' & o2' & F2' & E & R2' & FR). rewrite E. cbn [bind fst snd]. destruct (rep_frame H H' o2 x2 F2 F2' o1 x1 F1 R2 R1) as [R1' D']; [intros r I J; exact (D r J I)|exact FR|].
      apply (IH H' o1 o2' x1 x2'). exists F1, F2'. split; [exact R1'|]. split; [exact R2'|]. intros r I J. exact (D' r J I).
    + rewrite SE. cbn [bind]. destruct (foldM (fun x e0 => p_edit e0 x) (own false hs) x1); exists er; reflexivity.
  - pose proof (sim_edit e H o1 x1 F1 R1) as SE. destruct (p_edit e x1) as [x1'|er]; cbn [bind].
    + destruct SE as (H' & o1' & F1' & E & R1' & FR). rewrite E. cbn [bind fst snd]. destruct (rep_frame H H' o1 x1 F1 F1' o2 x2 F2 R1 R2 D FR) as [R2' D'].
      apply (IH H' o1' o2 x1' x2). exists F1', F2. split; [exact R1'|]. split; [exact R2'|exact D'].
    + rewrite SE. cbn [bind]. exists er. reflexivity.
Qed.

(** ** the clone *)
Lemma copy_in_spec : forall t H, holds H (t_cells t) -> exists t', copy_in H (t_adj t) = Ok (H ++ map (fun z : triple => CNb (snd z)) t, t_adj t') /\ t_val t' = t_val t /\ t_cells t' = combine (seq (length H) (length t)) (map (fun z : triple => CNb (snd z)) t).
Proof.
  induction t as [|[[v r] d] t IH]; intros H HH; [exists []; rewrite app_nil_r; repeat split; reflexivity|].
  cbn [t_adj map copy_in fst snd]. rewrite (HH r (CNb d)) by (left; reflexivity). fold (t_adj t). destruct (IH (H ++ [CNb d])) as (t' & E & V & CC); [apply holds_grow; intros r' c I; apply HH; right; exact I|].
  rewrite E. cbn [bind]. exists ((v, length H, d) :: t'). split; [rewrite <- app_assoc; reflexivity|]. cbn [t_val t_cells map fst snd length seq combine]. fold (t_val t') (t_cells t') (t_val t). rewrite V, CC, app_length. cbn [length]. rewrite Nat.add_1_r. split; reflexivity.
Qed.
Lemma rd_vd_app : forall ex H vo l, rd_vd H vo = Some l -> rd_vd (H ++ ex) vo = Some l.
Proof. induction ex as [|c ex IH]; intros H vo l E; [rewrite app_nil_r; exact E|]. rewrite app_cons. apply IH, rd_vd_grow, E. Qed.
Lemma holds_app : forall ex H l, holds H l -> holds (H ++ ex) l.
Proof. induction ex as [|c ex IH]; intros H l E; [rewrite app_nil_r; exact E|]. rewrite app_cons. apply IH, holds_grow, E. Qed.
Lemma clone_spec : forall H o x F, rep H o x F -> exists H' o', a_clone (H, o) = Ok (H', o') /\ sep H' o o' x (mkObs (og x) [] [] (ovd x)).
Proof.
  intros H o x F R. open_rep R vo nr t R0. unfold a_clone.
  rewrite (p_lay _ _ _ _ _ _ R0 (o_adj o) (CAdj (t_adj t))) by (unfold lay; simpl; tauto). rewrite (p_lay _ _ _ _ _ _ R0 (o_ty o) (CTy (gty (og x)))) by (unfold lay; simpl; tauto).
  rewrite (p_lay _ _ _ _ _ _ R0 (o_ph o) (CQc (gphase (og x)))) by (unfold lay; simpl; tauto). rewrite (p_lay _ _ _ _ _ _ R0 (o_q o) (CQc (gqindex (og x)))) by (unfold lay; simpl; tauto). rewrite (p_lay _ _ _ _ _ _ R0 (o_r o) (CQc (grindex (og x)))) by (unfold lay; simpl; tauto).
  rewrite (p_lay _ _ _ _ _ _ R0 (o_vd o) (CVo vo)) by (unfold lay; simpl; tauto).
  rewrite (p_lay _ _ _ _ _ _ R0 (o_sc o) (CSc (power2 (gscalar (og x))) (sphase (gscalar (og x))) nr (floatfactor (gscalar (og x))) (is_unknown (gscalar (og x))) (is_zero (gscalar (og x))))) by (unfold lay; simpl; tauto).
  rewrite (p_lay _ _ _ _ _ _ R0 nr (CList (phasenodes (gscalar (og x))))) by (unfold lay; simpl; tauto).
  destruct (copy_in_spec t H) as (t' & E & V & CC); [intros r c I; apply (p_lay _ _ _ _ _ _ R0); rewrite lay_base; apply in_app_iff; right; exact I|]. rewrite E. cbn [bind]. cbv zeta.
  set (H1 := H ++ map (fun z : triple => CNb (snd z)) t). set (n := length H1).
  assert (LEN : n = length H + length t) by (unfold n, H1; rewrite app_length, map_length; reflexivity).
  set (ex := [CAdj (t_adj t'); CTy (gty (og x)); CQc (gphase (og x)); CQc (gqindex (og x)); CQc (grindex (og x)); CSet []; CVars []; CVo vo; CSc (power2 (gscalar (og x))) (sphase (gscalar (og x))) (n + 9) (floatfactor (gscalar (og x))) (is_unknown (gscalar (og x))) (is_zero (gscalar (og x))); CList (phasenodes (gscalar (og x)))]).
  set (o' := mkO n (n + 1) (n + 2) (n + 3) (n + 4) (n + 5) (n + 6) (n + 7) (n + 8) (o_vindex o) (o_nedges o) (o_in o) (o_out o)).
  set (x' := mkObs (og x) [] [] (ovd x)).
  eexists. eexists. split; [reflexivity|].
  assert (LAY : lay o' x' vo (n + 9) t' = combine (seq n 10) ex ++ combine (seq (length H) (length t)) (map (fun z : triple => CNb (snd z)) t)).
  { rewrite lay_base, CC. f_equal. unfold base, o', ex. cbn [seq combine o_adj o_ty o_ph o_q o_r o_gr o_vt o_vd o_sc og ogr ovt x']. rewrite !Nat.add_succ_r, Nat.add_0_r. reflexivity. }
  assert (FE : map fst (lay o' x' vo (n + 9) t') = seq n 10 ++ seq (length H) (length t)).
  { rewrite LAY, map_app. f_equal. clear. generalize (length H) as k. induction t as [|z t IH]; intros k; [reflexivity|]. cbn [length seq map combine fst]. rewrite IH. reflexivity. }
  assert (COMB : forall (l pre post : cells) r c, In (r, c) (combine (seq (length pre) (length l)) l) -> nth_error (pre ++ l ++ post) r = Some c).
  { clear. induction l as [|a l IH]; intros pre post r c I; [destruct I|]. cbn [length seq combine In] in I. destruct I as [I|I].
    - injection I as <- <-. rewrite nth_error_app2, Nat.sub_diag by lia. reflexivity.
    - specialize (IH (pre ++ [a]) post r c). rewrite app_length in IH. cbn [length] in IH. rewrite Nat.add_1_r in IH. specialize (IH I). rewrite <- app_assoc in IH. exact IH. }
  exists (map fst (lay o x vo nr t)), (map fst (lay o' x' vo (n + 9) t')). split; [|split].
  - exists vo, nr, t. split; [|reflexivity]. constructor; try apply R0; [unfold H1; rewrite <- app_assoc; apply holds_app, R0|unfold H1; rewrite <- app_assoc; apply rd_vd_app, R0].
  - exists vo, (n + 9), t'. split; [|reflexivity]. constructor; try apply R0.
    + rewrite LAY. intros r c I. apply in_app_iff in I. destruct I as [I|I].
      * pose proof (COMB ex H1 [] r c I) as X. rewrite app_nil_r in X. exact X.
      * unfold H1. rewrite <- app_assoc. apply COMB. rewrite map_length. exact I.
    + rewrite FE. assert (P : Permutation.Permutation (seq n 10 ++ seq (length H) (length t)) (seq (length H) (length t + 10))). { rewrite (seq_app (length t) 10 (length H)), <- LEN. apply Permutation.Permutation_app_comm. }
      eapply Permutation.Permutation_NoDup; [apply Permutation.Permutation_sym, P|apply seq_NoDup].
    + rewrite V. apply R0.
    + unfold H1. rewrite <- app_assoc. apply rd_vd_app, R0.
  - intros r I J. apply (lay_lt _ _ _ _ _ _ _ R0) in I. rewrite FE in J. apply in_app_iff in J. destruct J as [J|J]; apply in_seq in J; lia.
Qed.

(** ** objects a program can have made: GraphS(), edits, set_vdata *)
(** graph_s.py 30-45 with the base class, base.py 87-102 *)
Definition new_obj : st :=
  ([CAdj []; CTy []; CQc []; CQc []; CQc []; CSet []; CVars []; CVo []; CSc 0 0%Qc 9 C1 false false; CList []],
   mkO 0 1 2 3 4 5 6 7 8 0 0 [] []).
Inductive made : st -> Prop :=
| made_new : made new_obj
| made_edit : forall s e s', made s -> a_edit e s = Ok s' -> made s'
| made_vdata : forall s v k z s', made s -> a_set_vdata v k z s = Ok s' -> made s'.
Lemma new_rep : exists x F, rep (fst new_obj) (snd new_obj) x F.
Proof.
  exists (mkObs (mkG [] 0 0 [] [] [] [] [] [] (mkS 0 0%Qc [] C1 false false)) [] [] []), (seq 0 10). exists [], 9, []. split; [|reflexivity]. constructor; try reflexivity.
  - intros r c I. unfold lay in I. simpl in I. repeat (destruct I as [I|I]; [injection I as <- <-; reflexivity|]). destruct I.
  - change (NoDup (seq 0 10)). apply seq_NoDup.
Qed.
Lemma vdata_rep : forall v k z H o x F H' o', rep H o x F -> a_set_vdata v k z (H, o) = Ok (H', o') -> exists x' F', rep H' o' x' F'.
Proof.
  intros v k z H o x F H' o' R E. open_rep R vo nr t R0. unfold a_set_vdata in E. assert (EV : nth_error H (o_vd o) = Some (CVo vo)) by cell_at R0 0 0. rewrite EV in E. destruct (dget v vo) as [r|] eqn:G.
  - destruct (nth_error H r) as [c|] eqn:X; [|discriminate]. destruct c; try discriminate. injection E as <- <-. pose proof (get_lt _ _ _ X) as L.
    assert (VD : exists l, rd_vd (cput H r (CVi (dset k z d))) vo = Some l).
    { pose proof (p_vd _ _ _ _ _ _ R0) as Y. revert Y. generalize (ovd x). clear R0 EV G. induction vo as [|[w r'] vo IH]; intros l Y; [exists []; reflexivity|]. cbn [rd_vd] in *. rewrite cput_get by exact L. destruct (nth_error H r') as [c'|] eqn:X'; [|discriminate]. destruct c'; try discriminate. destruct (rd_vd H vo) as [l'|]; [|discriminate]. destruct (IH l' eq_refl) as [l2 ->]. destruct (Nat.eqb r' r); eexists; reflexivity. }
    destruct VD as [l VD]. exists (mkObs (og x) (ogr x) (ovt x) l), (map fst (lay o x vo nr t)), vo, nr, t. split; [|reflexivity]. constructor; try apply R0; [|exact VD].
    intros r' c I. change (In (r', c) (lay o x vo nr t)) in I. rewrite cput_get by exact L. pose proof (p_lay _ _ _ _ _ _ R0 r' c I) as Y. destruct (Nat.eqb_spec r' r) as [->|]; [|exact Y]. exfalso. eapply not_vi; [exact I|]. rewrite X in Y. injection Y as Y. symmetry. exact Y.
  - injection E as <- <-. set (vo' := dset v (length H) vo).
    assert (R1 : rep0 (H ++ [CVi [(k, z)]]) o x vo nr t) by (constructor; try apply R0; [apply holds_grow, R0|apply rd_vd_grow, R0]).
    assert (VD : exists l, rd_vd (H ++ [CVi [(k, z)]]) vo' = Some l).
    { unfold vo'. pose proof (p_vd _ _ _ _ _ _ R0) as Y. revert Y. generalize (ovd x). clear R0 R1 EV vo'. induction vo as [|[w r'] vo IH]; intros l Y; cbn [dset rd_vd]; [rewrite nth_error_app2, Nat.sub_diag by lia; eexists; reflexivity|].
      cbn [dget] in G. destruct (Nat.eqb v w); [discriminate|]. cbn [rd_vd] in *. destruct (nth_error H r') as [c'|] eqn:X'; [|discriminate]. rewrite nth_error_app1 by (eapply get_lt; exact X'). rewrite X'. destruct c'; try discriminate. destruct (rd_vd H vo) as [l'|]; [|discriminate]. destruct (IH G l' eq_refl) as [l2 ->]. eexists; reflexivity. }
    destruct VD as [l VD]. destruct (write_cell (H ++ [CVi [(k, z)]]) o o x (mkObs (og x) (ogr x) (ovt x) l) vo vo' nr t t (firstn 7 (lay o x vo nr t)) _ (o_vd o) _ (CVo vo') R1 eq_refl eq_refl) as [R2 _]; try discriminate; try apply R1; [exact VD|].
    eexists. eexists. exists vo', nr, t. split; [exact R2|reflexivity].
Qed.
Lemma made_rep : forall s, made s -> exists x F, rep (fst s) (snd s) x F.
Proof.
  intros s M. induction M as [|s e s' M (x & F & R) E|s v k z s' M (x & F & R) E]; [exact new_rep| |]; destruct s as [H o], s' as [H' o']; cbn [fst snd] in *.
  - pose proof (sim_edit e H o x F R) as S. destruct (p_edit e x) as [x'|er]; [|rewrite S in E; discriminate]. destruct S as (H2 & o2 & F' & E2 & R2 & _). rewrite E in E2. injection E2 as <- <-. exists x', F'. exact R2.
  - eapply vdata_rep; eassumption.
Qed.
Lemma made_observe : forall s, made s -> exists x, observe s = Some x.
Proof. intros [H o] M. destruct (made_rep _ M) as (x & F & R). exists x. eapply rep_observe. exact R. Qed.
(** one object: editing it is editing the value observed of it *)
Lemma made_edit_value : forall s x e, made s -> observe s = Some x -> match p_edit e x with Ok x' => exists s', a_edit e s = Ok s' /\ observe s' = Some x' | Err er => a_edit e s = Err er end.
Proof.
  intros [H o] x e M O. destruct (made_rep _ M) as (x0 & F & R). cbn [fst snd] in R. pose proof (rep_observe _ _ _ _ R) as O'. rewrite O in O'. injection O' as <-. pose proof (sim_edit e H o x F R) as S. destruct (p_edit e x) as [x'|er]; [|exact S].
  destruct S as (H' & o' & F' & E & R' & _). exists (H', o'). split; [exact E|]. eapply rep_observe. exact R'.
Qed.
Theorem clone_isolated : forall H o x, made (H, o) -> observe (H, o) = Some x -> exists H1 c, a_clone (H, o) = Ok (H1, c) /\
  observe (H1, o) = Some x /\ observe (H1, c) = Some (mkObs (og x) [] [] (ovd x)) /\
  forall hs, match prun (own false hs) x, prun (own true hs) (mkObs (og x) [] [] (ovd x)) with
  | Ok y1, Ok y2 => exists H2 o2 c2, run2 hs (H1, o, c) = Ok (H2, o2, c2) /\ observe (H2, o2) = Some y1 /\ observe (H2, c2) = Some y2
  | _, _ => exists e, run2 hs (H1, o, c) = Err e
  end.
Proof.
  intros H o x M O. destruct (made_rep _ M) as (x0 & F & R). cbn [fst snd] in R. pose proof (rep_observe _ _ _ _ R) as O'. rewrite O in O'. injection O' as <-.
  destruct (clone_spec H o x F R) as (H1 & c & E & S). exists H1, c. split; [exact E|]. destruct S as (F1 & F2 & R1 & R2 & D).
  split; [eapply rep_observe; exact R1|]. split; [eapply rep_observe; exact R2|]. intros hs.
  pose proof (run2_spec hs H1 o c x _ (ex_intro _ F1 (ex_intro _ F2 (conj R1 (conj R2 D))))) as P. destruct (prun (own false hs) x) as [y1|e1]; [|exact P]. destruct (prun (own true hs) (mkObs (og x) [] [] (ovd x))) as [y2|e2]; [|exact P].
  destruct P as (H2 & o2 & c2 & E2 & G1 & G2 & Q1 & Q2 & _). exists H2, o2, c2. split; [exact E2|]. split; eapply rep_observe; eassumption.
Qed.

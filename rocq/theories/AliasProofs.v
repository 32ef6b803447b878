(** Graph objects own their cells: every edit of the object acts on what is
    observed of it as the edit of the value, and touches no cell of others. *)
From Coq Require Import ZArith QArith Qcanon List Bool Arith Lia.
From Verif Require Import CNum Base ScalarModel GraphModel AliasModel.
Import ListNotations.
Local Open Scope nat_scope.

(** ** heaps *)
Lemma cput_len : forall H r c, length (cput H r c) = length H.
Proof. induction H as [|a H IH]; intros [|r] c; cbn [cput length]; auto. Qed.
Lemma cput_get : forall H r c r', r < length H -> nth_error (cput H r c) r' = if Nat.eqb r' r then Some c else nth_error H r'.
Proof.
  induction H as [|a H IH]; intros r c r' L; [simpl in L; lia|]. destruct r as [|r], r' as [|r']; cbn [cput nth_error]; try reflexivity. cbn [length] in L. rewrite IH by lia. reflexivity.
Qed.
Lemma get_lt : forall (H : cells) r c, nth_error H r = Some c -> r < length H.
Proof. intros H r c E. apply nth_error_Some. congruence. Qed.

(** ** the cells owned by an object *)
Definition triple := (nat * nat * dict etype)%type.
Definition t_adj (t : list triple) : dict nat := map (fun z : triple => (fst (fst z), snd (fst z))) t.
Definition t_val (t : list triple) : dict (dict etype) := map (fun z : triple => (fst (fst z), snd z)) t.
Definition t_cells (t : list triple) : list (nat * cell) := map (fun z : triple => (snd (fst z), CNb (snd z))) t.
Definition lay (o : obj) (x : obs) (vo : dict nat) (nr : nat) (t : list triple) : list (nat * cell) :=
  [(o_adj o, CAdj (t_adj t)); (o_ty o, CTy (gty (og x))); (o_ph o, CQc (gphase (og x))); (o_q o, CQc (gqindex (og x))); (o_r o, CQc (grindex (og x)));
   (o_gr o, CSet (ogr x)); (o_vt o, CVars (ovt x)); (o_vd o, CVo vo);
   (o_sc o, CSc (power2 (gscalar (og x))) (sphase (gscalar (og x))) nr (floatfactor (gscalar (og x))) (is_unknown (gscalar (og x))) (is_zero (gscalar (og x))));
   (nr, CList (phasenodes (gscalar (og x))))] ++ t_cells t.
Definition holds (H : cells) (l : list (nat * cell)) : Prop := forall r c, In (r, c) l -> nth_error H r = Some c.
Record rep0 (H : cells) (o : obj) (x : obs) (vo : dict nat) (nr : nat) (t : list triple) : Prop := mkrep {
  p_lay : holds H (lay o x vo nr t);
  p_nd : NoDup (map fst (lay o x vo nr t));
  p_adj : gadj (og x) = t_val t;
  p_vd : rd_vd H vo = Some (ovd x);
  p_vx : o_vindex o = gvindex (og x);
  p_ne : o_nedges o = gnedges (og x);
  p_i : o_in o = ginputs (og x);
  p_o : o_out o = goutputs (og x) }.
(** [F]: the references owned *)
Definition rep (H : cells) (o : obj) (x : obs) (F : list nat) : Prop := exists vo nr t, rep0 H o x vo nr t /\ F = map fst (lay o x vo nr t).

(** [H'] differs from [H] in cells of [F] and new cells only *)
Definition fr (H H' : cells) (F F' : list nat) : Prop :=
  length H <= length H' /\ (forall r, r < length H -> ~ In r F -> nth_error H' r = nth_error H r) /\ (forall r, In r F' -> In r F \/ length H <= r).
Lemma fr_refl : forall H F, fr H H F F.
Proof. intros H F. split; [lia|]. split; auto. Qed.
Lemma fr_trans : forall H1 H2 H3 F1 F2 F3, fr H1 H2 F1 F2 -> fr H2 H3 F2 F3 -> fr H1 H3 F1 F3.
Proof.
  intros H1 H2 H3 F1 F2 F3 (L1 & U1 & N1) (L2 & U2 & N2). split; [lia|]. split.
  - intros r R NI. rewrite U2; [apply U1; assumption|lia|]. intros X. apply N1 in X. destruct X as [X|X]; [contradiction|lia].
  - intros r X. apply N2 in X. destruct X as [X|X]; [apply N1 in X; exact X|right; lia].
Qed.

(** ** simulation *)
Definition sim (p : st -> res st) (q : obs -> res obs) : Prop := forall H o x F, rep H o x F ->
  match q x with
  | Ok x' => exists H' o' F', p (H, o) = Ok (H', o') /\ rep H' o' x' F' /\ fr H H' F F'
  | Err e => p (H, o) = Err e
  end.
Lemma sim_ret : sim (fun s => Ok s) (fun x => Ok x).
Proof. intros H o x F R. exists H, o, F. split; [reflexivity|]. split; [exact R|apply fr_refl]. Qed.
Lemma sim_err : forall e, sim (fun s => Err e) (fun x => Err e).
Proof. intros e H o x F R. reflexivity. Qed.
Lemma sim_bind : forall p1 q1 p2 q2, sim p1 q1 -> sim p2 q2 -> sim (fun s => let* s := p1 s in p2 s) (fun x => let* x := q1 x in q2 x).
Proof.
  intros p1 q1 p2 q2 S1 S2 H o x F R. specialize (S1 H o x F R). destruct (q1 x) as [x1|e]; cbn [bind]; [|rewrite S1; reflexivity].
  destruct S1 as (H1 & o1 & F1 & E1 & R1 & FR1). rewrite E1. cbn [bind]. specialize (S2 H1 o1 x1 F1 R1). destruct (q2 x1) as [x2|e]; [|exact S2].
  destruct S2 as (H2 & o2 & F2 & E2 & R2 & FR2). exists H2, o2, F2. split; [exact E2|]. split; [exact R2|]. eapply fr_trans; eassumption.
Qed.
Lemma sim_foldM : forall B (p : st -> B -> res st) (q : obs -> B -> res obs), (forall b, sim (fun s => p s b) (fun x => q x b)) -> forall l, sim (foldM p l) (foldM q l).
Proof. intros B p q S. induction l as [|b l IH]; [exact sim_ret|]. exact (sim_bind _ _ _ _ (S b) IH). Qed.
(** reading a value that can be observed *)
Definition reads {Y} (f : st -> res Y) (g : obs -> res Y) : Prop := forall H o x F, rep H o x F -> f (H, o) = g x.
Lemma sim_read : forall Y (f : st -> res Y) g (p : Y -> st -> res st) q, reads f g -> (forall y, sim (p y) (q y)) -> sim (fun s => let* y := f s in p y s) (fun x => let* y := g x in q y x).
Proof. intros Y f g p q RD S H o x F R. rewrite (RD H o x F R). destruct (g x) as [y|e]; cbn [bind]; [apply S; exact R|reflexivity]. Qed.
Lemma sim_if : forall (b : bool) p q p' q', sim p q -> sim p' q' -> sim (fun s => if b then p s else p' s) (fun x => if b then q x else q' x).
Proof. intros [] p q p' q' S S'; assumption. Qed.
Lemma sim_ext : forall p q q', sim p q -> (forall x, q x = q' x) -> sim p q'.
Proof. intros p q q' S E H o x F R. rewrite <- E. apply S. exact R. Qed.
Lemma sim_ext2 : forall p p' q q', sim p q -> (forall s, p s = p' s) -> (forall x, q x = q' x) -> sim p' q'.
Proof. intros p p' q q' S E' E H o x F R. rewrite <- E. specialize (S H o x F R). destruct (q x); rewrite <- E'; exact S. Qed.

(** ** the primitive steps *)
Lemma rd_vd_put : forall H r c vo l, r < length H -> (forall d, nth_error H r <> Some (CVi d)) -> rd_vd H vo = Some l -> rd_vd (cput H r c) vo = Some l.
Proof.
  intros H r c vo l L N. revert l. induction vo as [|[v r'] vo IH]; intros l E; [exact E|]. cbn [rd_vd] in *. rewrite cput_get by exact L.
  destruct (nth_error H r') as [c'|] eqn:X; [|discriminate]. destruct c'; try discriminate. destruct (Nat.eqb_spec r' r) as [->|]; [exfalso; eapply N; exact X|].
  destruct (rd_vd H vo) as [l'|]; [|discriminate]. rewrite (IH l' eq_refl). exact E.
Qed.
Lemma rd_vd_grow : forall H c vo l, rd_vd H vo = Some l -> rd_vd (H ++ [c]) vo = Some l.
Proof.
  intros H c vo. induction vo as [|[v r] vo IH]; intros l E; [exact E|]. cbn [rd_vd] in *. destruct (nth_error H r) as [c'|] eqn:X; [|discriminate]. rewrite nth_error_app1 by (eapply get_lt; exact X). rewrite X. destruct c'; try discriminate.
  destruct (rd_vd H vo) as [l'|]; [|discriminate]. rewrite (IH l' eq_refl). exact E.
Qed.
Lemma holds_put : forall H l1 l2 r c c', NoDup (map fst (l1 ++ (r, c) :: l2)) -> holds H (l1 ++ (r, c) :: l2) -> holds (cput H r c') (l1 ++ (r, c') :: l2).
Proof.
  intros H l1 l2 r c c' N HH r' c0 I. assert (L : r < length H) by (eapply get_lt, (HH r c), in_elt). rewrite cput_get by exact L.
  rewrite map_app in N. cbn [map fst] in N. apply NoDup_remove in N. destruct N as [_ N]. rewrite <- map_app in N.
  apply in_app_iff in I. destruct (Nat.eqb_spec r' r) as [->|D].
  - destruct I as [I|[I|I]]; [| congruence |]; exfalso; apply N; apply in_map_iff; exists (r, c0); (split; [reflexivity|]); apply in_app_iff; auto.
  - apply HH. apply in_app_iff. destruct I as [I|[I|I]]; [auto|congruence|simpl; auto].
Qed.
Lemma put_fr : forall H r c F, In r F -> r < length H -> fr H (cput H r c) F F.
Proof. intros H r c F I L. split; [rewrite cput_len; lia|]. split; [|auto]. intros r' _ N. rewrite cput_get by exact L. destruct (Nat.eqb_spec r' r) as [->|]; [contradiction|reflexivity]. Qed.
(** writing one owned cell *)
Lemma write_cell : forall H o o' x x' vo vo' nr t t' l1 l2 r c c', rep0 H o x vo nr t -> lay o x vo nr t = l1 ++ (r, c) :: l2 -> lay o' x' vo' nr t' = l1 ++ (r, c') :: l2 -> (forall d, c <> CVi d) ->
  gadj (og x') = t_val t' -> rd_vd H vo' = Some (ovd x') -> o_vindex o' = gvindex (og x') -> o_nedges o' = gnedges (og x') -> o_in o' = ginputs (og x') -> o_out o' = goutputs (og x') ->
  rep0 (cput H r c') o' x' vo' nr t' /\ fr H (cput H r c') (map fst (lay o x vo nr t)) (map fst (lay o' x' vo' nr t')).
Proof.
  intros H o o' x x' vo vo' nr t t' l1 l2 r c c' R E E' NV A V P1 P2 P3 P4. assert (HR : nth_error H r = Some c) by (apply (p_lay _ _ _ _ _ _ R); rewrite E; apply in_elt). pose proof (get_lt _ _ _ HR) as L.
  assert (FE : map fst (lay o' x' vo' nr t') = map fst (lay o x vo nr t)) by (rewrite E, E', !map_app; reflexivity).
  split.
  - constructor; try assumption.
    + rewrite E'. eapply holds_put; [rewrite <- E; apply (p_nd _ _ _ _ _ _ R)|rewrite <- E; apply (p_lay _ _ _ _ _ _ R)].
    + rewrite FE. apply (p_nd _ _ _ _ _ _ R).
    + apply rd_vd_put; [exact L|intros d; rewrite HR; intros X; injection X as X; exact (NV d X)|exact V].
  - rewrite FE. apply put_fr; [|exact L]. rewrite E, map_app. apply in_elt.
Qed.

Definition xg (f : graph -> graph) (x : obs) : obs := mkObs (f (og x)) (ogr x) (ovt x) (ovd x).
Definition q_g (f : graph -> graph) (x : obs) : res obs := Ok (xg f x).

Ltac open_rep R vo nr t R0 := destruct R as (vo & nr & t & R0 & ->).
Ltac cell_at R r c := (apply (p_lay _ _ _ _ _ _ R); unfold lay; simpl; tauto).
Lemma sim_ty : forall f, sim (on_ty f) (q_g (fun g => with_ty (f (gty g)) g)).
Proof.
  intros f H o x F R. open_rep R vo nr t R0. unfold q_g, on_ty. assert (E : nth_error H (o_ty o) = Some (CTy (gty (og x)))) by cell_at R0 0 0. rewrite E.
  destruct (write_cell H o o x (xg (fun g => with_ty (f (gty g)) g) x) vo vo nr t t [(o_adj o, CAdj (t_adj t))] _ (o_ty o) _ (CTy (f (gty (og x)))) R0 eq_refl eq_refl) as [R1 F1]; try discriminate; try apply R0.
  eexists. eexists. eexists. split; [reflexivity|]. split; [|exact F1]. exists vo, nr, t. split; [exact R1|reflexivity].
Qed.
Lemma sim_ph : forall f, sim (on_qc o_ph f) (q_g (fun g => with_phase (f (gphase g)) g)).
Proof.
  intros f H o x F R. open_rep R vo nr t R0. unfold q_g, on_qc. assert (E : nth_error H (o_ph o) = Some (CQc (gphase (og x)))) by cell_at R0 0 0. rewrite E.
  destruct (write_cell H o o x (xg (fun g => with_phase (f (gphase g)) g) x) vo vo nr t t (firstn 2 (lay o x vo nr t)) _ (o_ph o) _ (CQc (f (gphase (og x)))) R0 eq_refl eq_refl) as [R1 F1]; try discriminate; try apply R0.
  eexists. eexists. eexists. split; [reflexivity|]. split; [|exact F1]. exists vo, nr, t. split; [exact R1|reflexivity].
Qed.
Lemma sim_q : forall f, sim (on_qc o_q f) (q_g (fun g => with_qindex (f (gqindex g)) g)).
Proof.
  intros f H o x F R. open_rep R vo nr t R0. unfold q_g, on_qc. assert (E : nth_error H (o_q o) = Some (CQc (gqindex (og x)))) by cell_at R0 0 0. rewrite E.
  destruct (write_cell H o o x (xg (fun g => with_qindex (f (gqindex g)) g) x) vo vo nr t t (firstn 3 (lay o x vo nr t)) _ (o_q o) _ (CQc (f (gqindex (og x)))) R0 eq_refl eq_refl) as [R1 F1]; try discriminate; try apply R0.
  eexists. eexists. eexists. split; [reflexivity|]. split; [|exact F1]. exists vo, nr, t. split; [exact R1|reflexivity].
Qed.
Lemma sim_r : forall f, sim (on_qc o_r f) (q_g (fun g => with_rindex (f (grindex g)) g)).
Proof.
  intros f H o x F R. open_rep R vo nr t R0. unfold q_g, on_qc. assert (E : nth_error H (o_r o) = Some (CQc (grindex (og x)))) by cell_at R0 0 0. rewrite E.
  destruct (write_cell H o o x (xg (fun g => with_rindex (f (grindex g)) g) x) vo vo nr t t (firstn 4 (lay o x vo nr t)) _ (o_r o) _ (CQc (f (grindex (og x)))) R0 eq_refl eq_refl) as [R1 F1]; try discriminate; try apply R0.
  eexists. eexists. eexists. split; [reflexivity|]. split; [|exact F1]. exists vo, nr, t. split; [exact R1|reflexivity].
Qed.
Definition x_gr (f : list nat -> list nat) (x : obs) : obs := mkObs (og x) (f (ogr x)) (ovt x) (ovd x).
Definition x_vt (f : dict bool -> dict bool) (x : obs) : obs := mkObs (og x) (ogr x) (f (ovt x)) (ovd x).
Definition x_vd (f : dict (dict Z) -> dict (dict Z)) (x : obs) : obs := mkObs (og x) (ogr x) (ovt x) (f (ovd x)).
Lemma sim_gr : forall f, sim (on_gr f) (fun x => Ok (x_gr f x)).
Proof.
  intros f H o x F R. open_rep R vo nr t R0. unfold on_gr. assert (E : nth_error H (o_gr o) = Some (CSet (ogr x))) by cell_at R0 0 0. rewrite E.
  destruct (write_cell H o o x (x_gr f x) vo vo nr t t (firstn 5 (lay o x vo nr t)) _ (o_gr o) _ (CSet (f (ogr x))) R0 eq_refl eq_refl) as [R1 F1]; try discriminate; try apply R0.
  eexists. eexists. eexists. split; [reflexivity|]. split; [|exact F1]. exists vo, nr, t. split; [exact R1|reflexivity].
Qed.
Lemma sim_vt : forall f, sim (on_vt f) (fun x => Ok (x_vt f x)).
Proof.
  intros f H o x F R. open_rep R vo nr t R0. unfold on_vt. assert (E : nth_error H (o_vt o) = Some (CVars (ovt x))) by cell_at R0 0 0. rewrite E.
  destruct (write_cell H o o x (x_vt f x) vo vo nr t t (firstn 6 (lay o x vo nr t)) _ (o_vt o) _ (CVars (f (ovt x))) R0 eq_refl eq_refl) as [R1 F1]; try discriminate; try apply R0.
  eexists. eexists. eexists. split; [reflexivity|]. split; [|exact F1]. exists vo, nr, t. split; [exact R1|reflexivity].
Qed.
Lemma rd_vd_del : forall H v vo l, rd_vd H vo = Some l -> rd_vd H (ddel v vo) = Some (ddel v l).
Proof.
  intros H v vo. induction vo as [|[w r] vo IH]; intros l E; [injection E as <-; reflexivity|]. cbn [rd_vd] in E. destruct (nth_error H r) as [c|] eqn:X; [|discriminate]. destruct c; try discriminate. destruct (rd_vd H vo) as [l'|] eqn:Y; [|discriminate]. injection E as <-.
  cbn [ddel]. destruct (Nat.eqb v w); [exact Y|]. cbn [rd_vd]. rewrite X, (IH l' eq_refl). reflexivity.
Qed.
Lemma sim_vo_del : forall v, sim (on_vo (ddel v)) (fun x => Ok (x_vd (ddel v) x)).
Proof.
  intros v H o x F R. open_rep R vo nr t R0. unfold on_vo. assert (E : nth_error H (o_vd o) = Some (CVo vo)) by cell_at R0 0 0. rewrite E.
  destruct (write_cell H o o x (x_vd (ddel v) x) vo (ddel v vo) nr t t (firstn 7 (lay o x vo nr t)) _ (o_vd o) _ (CVo (ddel v vo)) R0 eq_refl eq_refl) as [R1 F1]; try discriminate; try apply R0.
  { apply rd_vd_del, R0. }
  eexists. eexists. eexists. split; [reflexivity|]. split; [|exact F1]. exists (ddel v vo), nr, t. split; [exact R1|reflexivity].
Qed.
Lemma sim_obj : forall fo fg, (forall o, o_adj (fo o) = o_adj o /\ o_ty (fo o) = o_ty o /\ o_ph (fo o) = o_ph o /\ o_q (fo o) = o_q o /\ o_r (fo o) = o_r o /\ o_gr (fo o) = o_gr o /\ o_vt (fo o) = o_vt o /\ o_vd (fo o) = o_vd o /\ o_sc (fo o) = o_sc o) ->
  (forall g, gadj (fg g) = gadj g /\ gty (fg g) = gty g /\ gphase (fg g) = gphase g /\ gqindex (fg g) = gqindex g /\ grindex (fg g) = grindex g /\ gscalar (fg g) = gscalar g) ->
  (forall o g, o_vindex o = gvindex g -> o_nedges o = gnedges g -> o_in o = ginputs g -> o_out o = goutputs g ->
     o_vindex (fo o) = gvindex (fg g) /\ o_nedges (fo o) = gnedges (fg g) /\ o_in (fo o) = ginputs (fg g) /\ o_out (fo o) = goutputs (fg g)) ->
  sim (on_obj fo) (q_g fg).
Proof.
  intros fo fg HO HG HI H o x F R. open_rep R vo nr t R0. unfold q_g, on_obj. exists H, (fo o), (map fst (lay (fo o) (xg fg x) vo nr t)). split; [reflexivity|].
  assert (E : lay (fo o) (xg fg x) vo nr t = lay o x vo nr t).
  { unfold lay. destruct (HO o) as (-> & -> & -> & -> & -> & -> & -> & -> & ->). cbn [xg og ogr ovt]. destruct (HG (og x)) as (_ & -> & -> & -> & -> & ->). reflexivity. }
  destruct (HI o (og x) (p_vx _ _ _ _ _ _ R0) (p_ne _ _ _ _ _ _ R0) (p_i _ _ _ _ _ _ R0) (p_o _ _ _ _ _ _ R0)) as (I1 & I2 & I3 & I4).
  split; [|rewrite E; apply fr_refl]. exists vo, nr, t. split; [|reflexivity]. constructor; try (rewrite E; apply R0); try assumption; cbn [xg og ovd]; [destruct (HG (og x)) as (-> & _); apply R0|apply R0].
Qed.
Lemma sim_sc : forall f, sim (on_sc f) (q_g (on_scalar f)).
Proof.
  intros f H o x F R. open_rep R vo nr t R0. unfold q_g, on_sc.
  assert (E : nth_error H (o_sc o) = Some (CSc (power2 (gscalar (og x))) (sphase (gscalar (og x))) nr (floatfactor (gscalar (og x))) (is_unknown (gscalar (og x))) (is_zero (gscalar (og x))))) by cell_at R0 0 0.
  assert (E2 : nth_error H nr = Some (CList (phasenodes (gscalar (og x))))) by cell_at R0 0 0. rewrite E, E2.
  replace (mkS (power2 (gscalar (og x))) (sphase (gscalar (og x))) (phasenodes (gscalar (og x))) (floatfactor (gscalar (og x))) (is_unknown (gscalar (og x))) (is_zero (gscalar (og x)))) with (gscalar (og x)) by (destruct (gscalar (og x)); reflexivity).
  cbv zeta. set (s' := f (gscalar (og x))).
  set (s1 := mkS (power2 s') (sphase s') (phasenodes (gscalar (og x))) (floatfactor s') (is_unknown s') (is_zero s')).
  destruct (write_cell H o o x (xg (with_scalar s1) x) vo vo nr t t (firstn 8 (lay o x vo nr t)) _ (o_sc o) _ (CSc (power2 s') (sphase s') nr (floatfactor s') (is_unknown s') (is_zero s')) R0 eq_refl eq_refl) as [R1 F1]; try discriminate; try apply R0.
  destruct (write_cell _ o o _ (xg (on_scalar f) x) vo vo nr t t (firstn 9 (lay o (xg (with_scalar s1) x) vo nr t)) _ nr _ (CList (phasenodes s')) R1 eq_refl eq_refl) as [R2 F2]; try discriminate; try apply R1.
  eexists. eexists. eexists. split; [reflexivity|]. split; [exists vo, nr, t; split; [exact R2|reflexivity]|]. eapply fr_trans; eassumption.
Qed.

(** *** the dictionary of dictionaries *)
Lemma t_keys : forall t, dkeys (t_adj t) = dkeys (t_val t).
Proof. intros t. unfold dkeys, t_adj, t_val. rewrite !map_map. reflexivity. Qed.
Lemma t_find : forall v t, match dget v (t_adj t) with
  | Some r => exists t1 d t2, t = t1 ++ (v, r, d) :: t2 /\ ~ In v (map (fun z : triple => fst (fst z)) t1)
  | None => ~ In v (map (fun z : triple => fst (fst z)) t) end.
Proof.
  intros v t. induction t as [|[[w r] d] t IH]; cbn [t_adj map dget fst snd]; [intros []|]. destruct (Nat.eqb_spec v w) as [->|N].
  - exists [], d, t. split; [reflexivity|intros []].
  - fold (t_adj t). destruct (dget v (t_adj t)) as [r'|].
    + destruct IH as (t1 & d' & t2 & -> & NI). exists ((w, r, d) :: t1), d', t2. split; [reflexivity|]. cbn [map fst]. intros [X|X]; [congruence|contradiction].
    + intros [X|X]; [congruence|contradiction].
Qed.
Lemma t_val_get : forall v r d t1 t2, ~ In v (map (fun z : triple => fst (fst z)) t1) -> dget v (t_val (t1 ++ (v, r, d) :: t2)) = Some d.
Proof. intros v r d t1 t2 N. induction t1 as [|[[w r1] d1] t1 IH]; cbn [app t_val map dget fst snd]; [rewrite Nat.eqb_refl; reflexivity|]. cbn [map fst] in N. destruct (Nat.eqb_spec v w) as [->|]; [exfalso; apply N; left; reflexivity|]. apply IH. intros X. apply N. right. exact X. Qed.
Lemma t_val_set : forall v r r' d d' t1 t2, ~ In v (map (fun z : triple => fst (fst z)) t1) -> dset v d' (t_val (t1 ++ (v, r, d) :: t2)) = t_val (t1 ++ (v, r', d') :: t2).
Proof. intros v r r' d d' t1 t2 N. induction t1 as [|[[w r1] d1] t1 IH]; cbn [app t_val map dset fst snd]; [rewrite Nat.eqb_refl; reflexivity|]. cbn [map fst] in N. destruct (Nat.eqb_spec v w) as [->|]; [exfalso; apply N; left; reflexivity|]. f_equal. apply IH. intros X. apply N. right. exact X. Qed.
Lemma t_adj_set : forall v r r' d d' t1 t2, ~ In v (map (fun z : triple => fst (fst z)) t1) -> dset v r' (t_adj (t1 ++ (v, r, d) :: t2)) = t_adj (t1 ++ (v, r', d') :: t2).
Proof. intros v r r' d d' t1 t2 N. induction t1 as [|[[w r1] d1] t1 IH]; cbn [app t_adj map dset fst snd]; [rewrite Nat.eqb_refl; reflexivity|]. cbn [map fst] in N. destruct (Nat.eqb_spec v w) as [->|]; [exfalso; apply N; left; reflexivity|]. f_equal. apply IH. intros X. apply N. right. exact X. Qed.
Lemma t_val_del : forall v r d t1 t2, ~ In v (map (fun z : triple => fst (fst z)) t1) -> ddel v (t_val (t1 ++ (v, r, d) :: t2)) = t_val (t1 ++ t2).
Proof. intros v r d t1 t2 N. induction t1 as [|[[w r1] d1] t1 IH]; cbn [app t_val map ddel fst snd]; [rewrite Nat.eqb_refl; reflexivity|]. cbn [map fst] in N. destruct (Nat.eqb_spec v w) as [->|]; [exfalso; apply N; left; reflexivity|]. f_equal. apply IH. intros X. apply N. right. exact X. Qed.
Lemma t_adj_del : forall v r d t1 t2, ~ In v (map (fun z : triple => fst (fst z)) t1) -> ddel v (t_adj (t1 ++ (v, r, d) :: t2)) = t_adj (t1 ++ t2).
Proof. intros v r d t1 t2 N. induction t1 as [|[[w r1] d1] t1 IH]; cbn [app t_adj map ddel fst snd]; [rewrite Nat.eqb_refl; reflexivity|]. cbn [map fst] in N. destruct (Nat.eqb_spec v w) as [->|]; [exfalso; apply N; left; reflexivity|]. f_equal. apply IH. intros X. apply N. right. exact X. Qed.
Lemma t_none : forall v t, ~ In v (map (fun z : triple => fst (fst z)) t) -> dget v (t_val t) = None /\ (forall d, dset v d (t_val t) = t_val t ++ [(v, d)]) /\ (forall r, dset v r (t_adj t) = t_adj t ++ [(v, r)]) /\ ddel v (t_val t) = t_val t /\ ddel v (t_adj t) = t_adj t.
Proof.
  intros v t. induction t as [|[[w r1] d1] t IH]; intros N; [repeat split|]. cbn [map fst] in N. destruct IH as (A & B & C & D & E); [intros X; apply N; right; exact X|]. assert (W : Nat.eqb v w = false) by (apply Nat.eqb_neq; intros ->; apply N; left; reflexivity).
  cbn [t_val t_adj map dget dset ddel fst snd app]. rewrite W. fold (t_val t) (t_adj t). repeat split; [exact A|intros d; rewrite B; reflexivity|intros r; rewrite C; reflexivity|rewrite D; reflexivity|rewrite E; reflexivity].
Qed.
Lemma app_cons : forall A (l1 : list A) a l2, l1 ++ a :: l2 = (l1 ++ [a]) ++ l2.
Proof. intros. rewrite <- app_assoc. reflexivity. Qed.
(** the first ten cells *)
Definition base (o : obj) (x : obs) (vo : dict nat) (nr : nat) (a : dict nat) : list (nat * cell) :=
  [(o_adj o, CAdj a); (o_ty o, CTy (gty (og x))); (o_ph o, CQc (gphase (og x))); (o_q o, CQc (gqindex (og x))); (o_r o, CQc (grindex (og x)));
   (o_gr o, CSet (ogr x)); (o_vt o, CVars (ovt x)); (o_vd o, CVo vo);
   (o_sc o, CSc (power2 (gscalar (og x))) (sphase (gscalar (og x))) nr (floatfactor (gscalar (og x))) (is_unknown (gscalar (og x))) (is_zero (gscalar (og x))));
   (nr, CList (phasenodes (gscalar (og x))))].
Lemma lay_base : forall o x vo nr t, lay o x vo nr t = base o x vo nr (t_adj t) ++ t_cells t.
Proof. reflexivity. Qed.

Lemma reads_nb : forall v, reads (get_nb v) (fun x => of_opt KeyError (dget v (gadj (og x)))).
Proof.
  intros v H o x F R. open_rep R vo nr t R0. unfold get_nb. assert (E : nth_error H (o_adj o) = Some (CAdj (t_adj t))) by cell_at R0 0 0. rewrite E, (p_adj _ _ _ _ _ _ R0).
  pose proof (t_find v t) as X. destruct (dget v (t_adj t)) as [r|].
  - destruct X as (t1 & d & t2 & -> & N). rewrite t_val_get by exact N. assert (HR : nth_error H r = Some (CNb d)). { apply (p_lay _ _ _ _ _ _ R0). rewrite lay_base. apply in_app_iff. right. unfold t_cells. rewrite map_app. apply in_elt. } rewrite HR. reflexivity.
  - destruct (t_none v t X) as [-> _]. reflexivity.
Qed.
Definition q_nb (v : nat) (f : dict etype -> dict etype) (x : obs) : res obs :=
  match dget v (gadj (og x)) with None => Err KeyError | Some d => Ok (xg (fun g => with_adj (dset v (f d) (gadj g)) g) x) end.
Lemma sim_nb : forall v f, sim (on_nb v f) (q_nb v f).
Proof.
  intros v f H o x F R. open_rep R vo nr t R0. unfold on_nb, q_nb. assert (E : nth_error H (o_adj o) = Some (CAdj (t_adj t))) by cell_at R0 0 0. rewrite E, (p_adj _ _ _ _ _ _ R0).
  pose proof (t_find v t) as X. destruct (dget v (t_adj t)) as [r|].
  - destruct X as (t1 & d & t2 & -> & N). rewrite t_val_get by exact N. assert (HR : nth_error H r = Some (CNb d)). { apply (p_lay _ _ _ _ _ _ R0). rewrite lay_base. apply in_app_iff. right. unfold t_cells. rewrite map_app. apply in_elt. } rewrite HR.
    set (x' := xg (fun g => with_adj (dset v (f d) (gadj g)) g) x).
    assert (AE : t_adj (t1 ++ (v, r, f d) :: t2) = t_adj (t1 ++ (v, r, d) :: t2)) by (unfold t_adj; rewrite !map_app; reflexivity).
    destruct (write_cell H o o x x' vo vo nr (t1 ++ (v, r, d) :: t2) (t1 ++ (v, r, f d) :: t2) (base o x vo nr (t_adj (t1 ++ (v, r, d) :: t2)) ++ t_cells t1) (t_cells t2) r (CNb d) (CNb (f d)) R0) as [R1 F1]; try discriminate; try apply R0.
    + rewrite lay_base. unfold t_cells. rewrite map_app, <- app_assoc. reflexivity.
    + rewrite lay_base, AE. unfold t_cells. rewrite map_app, <- app_assoc. reflexivity.
    + cbn [x' xg og gadj with_adj]. rewrite (p_adj _ _ _ _ _ _ R0). apply t_val_set. exact N.
    + eexists. eexists. eexists. split; [reflexivity|]. split; [|exact F1]. exists vo, nr, (t1 ++ (v, r, f d) :: t2). split; [exact R1|reflexivity].
  - destruct (t_none v t X) as [-> _]. reflexivity.
Qed.
Lemma reads_keys : reads get_keys (fun x => Ok (dkeys (gadj (og x)))).
Proof. intros H o x F R. open_rep R vo nr t R0. unfold get_keys. assert (E : nth_error H (o_adj o) = Some (CAdj (t_adj t))) by cell_at R0 0 0. rewrite E, (p_adj _ _ _ _ _ _ R0), t_keys. reflexivity. Qed.
Lemma reads_ty : reads get_ty (fun x => Ok (gty (og x))).
Proof. intros H o x F R. open_rep R vo nr t R0. unfold get_ty. assert (E : nth_error H (o_ty o) = Some (CTy (gty (og x)))) by cell_at R0 0 0. rewrite E. reflexivity. Qed.
Lemma reads_ph : reads get_ph (fun x => Ok (gphase (og x))).
Proof. intros H o x F R. open_rep R vo nr t R0. unfold get_ph. assert (E : nth_error H (o_ph o) = Some (CQc (gphase (og x)))) by cell_at R0 0 0. rewrite E. reflexivity. Qed.

Lemma lay_lt : forall H o x vo nr t r, rep0 H o x vo nr t -> In r (map fst (lay o x vo nr t)) -> r < length H.
Proof. intros H o x vo nr t r R I. apply in_map_iff in I. destruct I as [[r' c] [E I]]. cbn [fst] in E. subst r'. eapply get_lt, (p_lay _ _ _ _ _ _ R), I. Qed.
Lemma holds_grow : forall H l c, holds H l -> holds (H ++ [c]) l.
Proof. intros H l c HH r c' I. specialize (HH r c' I). rewrite nth_error_app1 by (eapply get_lt; exact HH). exact HH. Qed.
(** changing the table of inner dictionaries: old ones may be dropped, new ones are fresh *)
Lemma sim_table : forall H o x vo nr t t' ex adj', rep0 H o x vo nr t -> adj' = t_val t' ->
  (forall r c, In (r, c) (t_cells t') -> In (r, c) (t_cells t) \/ exists i, r = length H + i /\ nth_error ex i = Some c) ->
  NoDup (map fst (t_cells t')) ->
  let H' := cput (H ++ ex) (o_adj o) (CAdj (t_adj t')) in let x' := xg (fun g => with_adj adj' g) x in
  (rd_vd (H ++ ex) vo = Some (ovd x)) ->
  rep0 H' o x' vo nr t' /\ fr H H' (map fst (lay o x vo nr t)) (map fst (lay o x' vo nr t')).
Proof.
  intros H o x vo nr t t' ex adj' R A CT ND H' x' VD.
  assert (EA : nth_error H (o_adj o) = Some (CAdj (t_adj t))) by cell_at R 0 0.
  assert (LA : o_adj o < length (H ++ ex)) by (rewrite app_length; apply get_lt in EA; lia).
  pose proof (p_nd _ _ _ _ _ _ R) as NDL. rewrite lay_base, map_app in NDL.
  assert (BASE : forall r, In r (map fst (base o x vo nr (t_adj t))) -> r < length H /\ ~ In r (map fst (t_cells t))).
  { intros r I. split; [eapply lay_lt; [exact R|]; rewrite lay_base, map_app; apply in_app_iff; left; exact I|]. intros J. clear - NDL I J. induction (map fst (base o x vo nr (t_adj t))) as [|b l IH]; [destruct I|]. cbn [app] in NDL. inversion NDL; subst. destruct I as [->|I]; [apply H1; apply in_app_iff; right; exact J|apply IH; assumption]. }
  assert (BT : forall r, In r (map fst (base o x vo nr (t_adj t))) -> ~ In r (map fst (t_cells t'))).
  { intros r I J. apply in_map_iff in J. destruct J as [[r' c] [E J]]. cbn [fst] in E. subst r'. destruct (BASE r I) as [L N]. destruct (CT r c J) as [K|(i & K & _)]; [apply N; apply in_map_iff; exists (r, c); auto|lia]. }
  assert (OLD : forall r c, In (r, c) (lay o x vo nr t) -> r <> o_adj o -> nth_error H' r = Some c).
  { intros r c I N. unfold H'. rewrite cput_get by exact LA. apply Nat.eqb_neq in N. rewrite N. rewrite nth_error_app1 by (eapply get_lt, (p_lay _ _ _ _ _ _ R), I). apply (p_lay _ _ _ _ _ _ R). exact I. }
  assert (NA : forall r c, In (r, c) (tl (base o x vo nr (t_adj t))) -> r <> o_adj o).
  { intros r c I ->. cbn [base map fst app] in NDL. inversion NDL; subst. apply H2. change (In (o_adj o) (map fst (tl (base o x vo nr (t_adj t))) ++ map fst (t_cells t))). apply in_app_iff. left. apply in_map_iff. exists (o_adj o, c). auto. }
  split.
  - constructor.
    + intros r c I. rewrite lay_base in I. apply in_app_iff in I. destruct I as [I|I].
      * destruct I as [I|I].
        -- injection I as <- <-. unfold H'. rewrite cput_get, Nat.eqb_refl by exact LA. reflexivity.
        -- change (In (r, c) (tl (base o x vo nr (t_adj t)))) in I. apply OLD; [|eapply NA; exact I]. rewrite lay_base. apply in_app_iff. left. right. exact I.
      * assert (RN : r <> o_adj o). { intros ->. apply (BT (o_adj o)); [left; reflexivity|]. apply in_map_iff. exists (o_adj o, c). auto. }
        destruct (CT r c I) as [K|(i & K & NE)]; [apply OLD; [rewrite lay_base; apply in_app_iff; right; exact K|exact RN]|].
        unfold H'. rewrite cput_get by exact LA. apply Nat.eqb_neq in RN. rewrite RN. rewrite nth_error_app2 by lia. replace (r - length H) with i by lia. exact NE.
    + rewrite lay_base, map_app. change (map fst (base o x' vo nr (t_adj t'))) with (map fst (base o x vo nr (t_adj t))).
      assert (NB : NoDup (map fst (base o x vo nr (t_adj t)))) by (clear - NDL; induction (map fst (base o x vo nr (t_adj t))) as [|b l IH]; [constructor|]; cbn [app] in NDL; inversion NDL; subst; constructor; [intros X; apply H1; apply in_app_iff; auto|auto]).
      clear - NB BT ND. induction (map fst (base o x vo nr (t_adj t))) as [|b l IH]; [exact ND|]. cbn [app]. inversion NB; subst. constructor; [|apply IH; [intros r I; apply BT; right; exact I|exact H2]]. intros X. apply in_app_iff in X. destruct X as [X|X]; [contradiction|]. apply (BT b); [left; reflexivity|exact X].
    + exact A.
    + unfold H'. apply rd_vd_put; [exact LA| |exact VD]. intros d. rewrite nth_error_app1 by (eapply get_lt; exact EA). rewrite EA. discriminate.
    + apply R.
    + apply R.
    + apply R.
    + apply R.
  - split; [unfold H'; rewrite cput_len, app_length; lia|]. split.
    + intros r L N. unfold H'. rewrite cput_get by exact LA. destruct (Nat.eqb_spec r (o_adj o)) as [->|]; [exfalso; apply N; left; reflexivity|]. apply nth_error_app1. exact L.
    + intros r I. rewrite lay_base, map_app in I. apply in_app_iff in I. destruct I as [I|I]; [left; rewrite lay_base, map_app; apply in_app_iff; left; exact I|].
      apply in_map_iff in I. destruct I as [[r' c] [E I]]. cbn [fst] in E. subst r'. destruct (CT r c I) as [K|(i & -> & _)]; [left|right; lia]. rewrite lay_base, map_app. apply in_app_iff. right. apply in_map_iff. exists (r, c). auto.
Qed.
Lemma t_cells_nd : forall H o x vo nr t, rep0 H o x vo nr t -> NoDup (map fst (t_cells t)).
Proof. intros H o x vo nr t R. pose proof (p_nd _ _ _ _ _ _ R) as N. rewrite lay_base, map_app in N. clear R. induction (map fst (base o x vo nr (t_adj t))) as [|b l IH]; [exact N|]. cbn [app] in N. inversion N; subst. auto. Qed.
Lemma t_cells_lt : forall H o x vo nr t r, rep0 H o x vo nr t -> In r (map fst (t_cells t)) -> r < length H.
Proof. intros H o x vo nr t r R I. eapply lay_lt; [exact R|]. rewrite lay_base, map_app. apply in_app_iff. right. exact I. Qed.
Lemma tc_app : forall t1 t2, t_cells (t1 ++ t2) = t_cells t1 ++ t_cells t2.
Proof. intros. apply map_app. Qed.
Lemma tc_cons : forall v r d t, t_cells ((v, r, d) :: t) = (r, CNb d) :: t_cells t.
Proof. reflexivity. Qed.
Lemma sim_new : forall v, sim (new_nb v) (q_g (fun g => with_adj (dset v [] (gadj g)) g)).
Proof.
  intros v H o x F R. open_rep R vo nr t R0. unfold new_nb, q_g. assert (E : nth_error H (o_adj o) = Some (CAdj (t_adj t))) by cell_at R0 0 0. rewrite E.
  pose proof (t_cells_nd _ _ _ _ _ _ R0) as ND. pose proof (fun r => t_cells_lt _ _ _ _ _ _ r R0) as LT.
  assert (T : exists t', dset v (length H) (t_adj t) = t_adj t' /\ dset v [] (t_val t) = t_val t' /\ (forall r c, In (r, c) (t_cells t') -> In (r, c) (t_cells t) \/ exists i, r = length H + i /\ nth_error [CNb []] i = Some c) /\ NoDup (map fst (t_cells t'))).
  { pose proof (t_find v t) as X. destruct (dget v (t_adj t)) as [r|].
    - destruct X as (t1 & d & t2 & -> & N). exists (t1 ++ (v, length H, []) :: t2). split; [apply t_adj_set; exact N|]. split; [apply t_val_set; exact N|]. clear E R0. rewrite !tc_app, !tc_cons in *. split.
      + intros r0 c I. apply in_app_iff in I. destruct I as [I|[I|I]]; [left; apply in_app_iff; auto| |left; apply in_app_iff; right; right; exact I]. injection I as <- <-. right. exists 0. split; [lia|reflexivity].
      + rewrite map_app in *. cbn [map fst snd] in *. apply NoDup_remove in ND. destruct ND as [ND _]. eapply Permutation.Permutation_NoDup; [apply Permutation.Permutation_middle|]. constructor; [|exact ND]. intros I. assert (length H < length H); [|lia]. apply LT. apply in_app_iff in I. apply in_app_iff. destruct I as [I|I]; [auto|right; right; exact I].
    - destruct (t_none v t X) as (_ & B & C & _). exists (t ++ [(v, length H, [])]). split; [rewrite C; unfold t_adj; rewrite map_app; reflexivity|]. split; [rewrite B; unfold t_val; rewrite map_app; reflexivity|]. rewrite tc_app, tc_cons. split.
      + intros r0 c I. apply in_app_iff in I. destruct I as [I|[I|[]]]; [auto|]. injection I as <- <-. right. exists 0. split; [lia|reflexivity].
      + rewrite map_app. cbn [map fst snd]. apply NoDup_snoc; [exact ND|]. intros I. apply LT in I. lia. }
  destruct T as (t' & TA & TV & CT & ND'). rewrite TA. destruct (sim_table H o x vo nr t t' [CNb []] (dset v [] (t_val t)) R0 TV CT ND') as [R1 F1]; [apply rd_vd_grow, R0|].
  eexists. eexists. eexists. split; [reflexivity|]. split; [|exact F1]. exists vo, nr, t'. split; [|reflexivity]. rewrite <- (p_adj _ _ _ _ _ _ R0) in R1. exact R1.
Qed.
Lemma sim_del : forall v, sim (del_nb v) (q_g (fun g => with_adj (ddel v (gadj g)) g)).
Proof.
  intros v H o x F R. open_rep R vo nr t R0. unfold del_nb, q_g. assert (E : nth_error H (o_adj o) = Some (CAdj (t_adj t))) by cell_at R0 0 0. rewrite E.
  pose proof (t_cells_nd _ _ _ _ _ _ R0) as ND.
  assert (T : exists t', ddel v (t_adj t) = t_adj t' /\ ddel v (t_val t) = t_val t' /\ (forall r c, In (r, c) (t_cells t') -> In (r, c) (t_cells t) \/ exists i, r = length H + i /\ nth_error (@nil cell) i = Some c) /\ NoDup (map fst (t_cells t'))).
  { pose proof (t_find v t) as X. destruct (dget v (t_adj t)) as [r|].
    - destruct X as (t1 & d & t2 & -> & N). exists (t1 ++ t2). split; [eapply t_adj_del; exact N|]. split; [eapply t_val_del; exact N|]. clear E R0. rewrite !tc_app, !tc_cons in *. split.
      + intros r0 c I. left. apply in_app_iff in I. apply in_app_iff. destruct I as [I|I]; [auto|right; right; exact I].
      + rewrite map_app in *. cbn [map fst] in ND. apply NoDup_remove in ND. apply ND.
    - destruct (t_none v t X) as (_ & _ & _ & D & A). exists t. split; [exact A|]. split; [exact D|]. split; [auto|exact ND]. }
  destruct T as (t' & TA & TV & CT & ND'). rewrite TA. destruct (sim_table H o x vo nr t t' [] (ddel v (t_val t)) R0 TV CT ND') as [R1 F1]; [rewrite app_nil_r; apply R0|].
  rewrite app_nil_r in R1, F1. eexists. eexists. eexists. split; [reflexivity|]. split; [|exact F1]. exists vo, nr, t'. split; [|reflexivity]. rewrite <- (p_adj _ _ _ _ _ _ R0) in R1. exact R1.
Qed.

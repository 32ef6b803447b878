(** Proofs about the Steiner-tree Gaussian elimination (RouteModel). *)
From Coq Require Import List Bool Arith Lia.
From Verif Require Import Base LinModel RouteModel.
Import ListNotations.

(** ** Specification *)
(** [v] and [w] are joined by an edge of the architecture *)
Definition joined (A : arch) (v w : nat) : Prop := In (v, w) (a_es A) \/ In (w, v) (a_es A).
(** the qubits [a] and [b] sit on joined vertices *)
Definition linked (A : arch) (e : edge) : Prop := exists v w, joined A v w /\ a_qub A v = fst e /\ a_qub A w = snd e.
(** the neighbours that the graph lists are given by its edges *)
Definition arch_ok (A : arch) : Prop := forall v w, In w (a_nb A v) -> joined A v w.
(** the matrix is the first one with the recorded row additions applied, all of them between linked qubits *)
Definition routed (A : arch) (m : mat) (s : gst) : Prop := fst s = track_x row_add (snd s) m /\ Forall (linked A) (snd s).

Lemma joined_sym : forall A v w, joined A v w -> joined A w v.
Proof. unfold joined; tauto. Qed.
Lemma linked_sym : forall A a b, linked A (a, b) -> linked A (b, a).
Proof. intros A a b [v [w [H [X Y]]]]. exists w, v. split; [apply joined_sym; exact H | auto]. Qed.
Lemma foldM_inv : forall {X B} (P : X -> Prop) (Q : B -> Prop) (f : X -> B -> res X) l,
  (forall x b x', P x -> Q b -> f x b = Ok x' -> P x') -> Forall Q l -> forall x x', P x -> foldM f l x = Ok x' -> P x'.
Proof.
  induction l as [| b l IH]; intros H HQ x x' Hx E; simpl in E; [congruence |].
  inversion HQ; subst. destruct (f x b) as [y |] eqn:Ey; simpl in E; [| discriminate].
  apply (IH H H3 y x'); [eapply H; eauto | exact E].
Qed.
Lemma routed_radd : forall A m s e s', routed A m s -> linked A e -> radd s e = Ok s' -> routed A m s'.
Proof.
  intros A m [x ops] [a b] s' [H1 H2] L E. unfold radd in E. destruct (_ && _); [| discriminate].
  inversion E; subst. unfold g_add; simpl in *. split; simpl.
  - unfold track_x in *. rewrite fold_left_app. simpl. rewrite <- H1. reflexivity.
  - apply Forall_app. split; [exact H2 | constructor; [exact L | constructor]].
Qed.

(** ** steiner_tree *)
Lemma bfs_linked : forall A, arch_ok A -> forall fuel tree vis q out es,
  Forall (linked A) out -> bfs A fuel tree vis q out = Ok es -> Forall (linked A) es.
Proof.
  intros A HA. induction fuel as [| f IH]; intros tree vis q out es H E; destruct q as [| n q]; simpl in E; try (inversion E; subst; exact H); try discriminate.
  eapply IH; [| exact E]. apply Forall_app. split; [exact H |].
  apply Forall_forall. intros e He. apply in_map_iff in He. destruct He as [v [<- Hv]]. apply filter_In in Hv.
  exists n, v. split; [apply HA; tauto | auto].
Qed.
Definition all_linked (A : arch) (t : list (option edge)) : Prop := forall e, In (Some e) t -> linked A e.
Lemma tree_linked : forall so A start qs upper t, arch_ok A -> steiner_tree so A start qs upper = Ok t -> all_linked A t.
Proof.
  intros so A start qs upper t HA E. unfold steiner_tree in E.
  destruct (q2v A start) as [root |]; simpl in E; [| discriminate].
  destruct (mapR (q2v A) qs) as [ts |]; simpl in E; [| discriminate].
  destruct (negb _); [discriminate |]. destruct (negb _); [discriminate |]. destruct (negb _); [discriminate |].
  match type of E with (bind ?X _) = _ => destruct X as [d |]; simpl in E; [| discriminate] end.
  match type of E with (bind ?X _) = _ => destruct X as [tr |]; simpl in E; [| discriminate] end.
  match type of E with (match ?X with _ => _ end) = _ => idtac | (bind ?X _) = _ => idtac end.
  destruct (bfs A (S (length tr)) tr [root] [root] []) as [es |] eqn:Eb; simpl in Eb, E; rewrite ?Eb in E; simpl in E; [| discriminate].
  assert (L : Forall (linked A) es) by (apply (bfs_linked A HA (S (length tr)) tr [root] [root] [] es); [constructor | exact Eb]).
  rewrite Forall_forall in L.
  inversion E; subst. intros e He.
  apply in_app_iff in He. destruct He as [He | [He | He]].
  - apply in_map_iff in He. destruct He as [x [X1 X2]]. inversion X1; subst. auto.
  - discriminate.
  - apply in_app_iff in He. destruct He as [He | [He | []]]; [| discriminate].
    apply in_map_iff in He. destruct He as [x [X1 X2]]. inversion X1; subst. apply in_rev in X2. auto.
Qed.
Lemma take_linked : forall A t, all_linked A t -> forall r, take_none t = Ok r -> Forall (linked A) (fst r) /\ all_linked A (snd r).
Proof.
  intros A. induction t as [| [e |] t IH]; intros H r E; simpl in E; [discriminate | |].
  - destruct (take_none t) as [r' |] eqn:Et; simpl in E; [| discriminate]. inversion E; subst; simpl.
    destruct (IH ltac:(intros x Hx; apply H; right; exact Hx) r' eq_refl) as [A1 A2].
    split; [constructor; [apply H; left; reflexivity | exact A1] | exact A2].
  - inversion E; subst; simpl. split; [constructor | intros x Hx; apply H; right; exact Hx].
Qed.
Lemma zeros_linked : forall A m col es z, Forall (linked A) es -> find_zeros m col es = Ok z -> Forall (linked A) z.
Proof.
  intros A m col. induction es as [| e es IH]; intros z H E; simpl in E; [inversion E; constructor |].
  inversion H; subst. destruct (rd m (fst e) col) as [b |]; simpl in E; [| discriminate].
  destruct (find_zeros m col es) as [z' |] eqn:Ez; simpl in E; [| discriminate]. inversion E; subst.
  destruct b; [apply IH; auto | constructor; [auto | apply IH; auto]].
Qed.
Lemma reduce_routed : forall so A m col root nodes upper s s', arch_ok A -> routed A m s ->
  steiner_reduce so A col root nodes upper s = Ok s' -> routed A m s'.
Proof.
  intros so A m col root nodes upper s s' HA H E. unfold steiner_reduce in E.
  destruct (steiner_tree so A root nodes upper) as [t |] eqn:Et; simpl in E; [| discriminate].
  apply tree_linked in Et; [| exact HA].
  assert (RA : forall es x x', Forall (linked A) es -> routed A m x -> foldM radd es x = Ok x' -> routed A m x').
  { intros es x x' L Hx Ex. apply (foldM_inv (routed A m) (linked A) radd es) with (x := x); auto.
    intros; eapply routed_radd; eauto. }
  destruct upper.
  - destruct (take_none t) as [r |] eqn:Er; simpl in E; [| discriminate].
    destruct (take_linked A t Et r Er) as [L1 L2].
    destruct (find_zeros (fst s) col (fst r)) as [z |] eqn:Ez; simpl in E; [| discriminate].
    apply (zeros_linked A) in Ez; [| exact L1].
    destruct (foldM (fill_zero col) (rev z) s) as [s1 |] eqn:E1; simpl in E; [| discriminate].
    destruct (take_none (snd r)) as [r2 |] eqn:Er2; simpl in E; [| discriminate].
    destruct (take_linked A _ L2 r2 Er2) as [L3 _].
    apply (RA _ s1 s' L3); [| exact E].
    apply (foldM_inv (routed A m) (linked A) (fill_zero col) (rev z)) with (x := s); auto.
    + intros x [a b] x' Hx Hb Ex. unfold fill_zero in Ex. destruct (rd (fst x) (fst (a, b)) col) as [v |]; simpl in Ex; [| discriminate].
      destruct v; [congruence |]. eapply routed_radd; [exact Hx | apply linked_sym; exact Hb | exact Ex].
    + apply Forall_rev. exact Ez.
  - destruct t as [| o t]; [discriminate |].
    destruct (take_none t) as [r2 |] eqn:Er2; simpl in E; [| discriminate].
    destruct (take_linked A t ltac:(intros x Hx; apply Et; right; exact Hx) r2 Er2) as [L3 _].
    apply (RA _ s s' L3); auto.
Qed.
Theorem gauss_routed : forall so A full m s r, arch_ok A -> steiner_gauss so A full m = Ok (s, r) -> routed A m s.
Proof.
  intros so A full m s r HA E. unfold steiner_gauss in E.
  destruct (foldM (down_row so A (cols m)) (seq 0 (rows m)) (m, [], Some 0, [])) as [[[s1 o] pc] |] eqn:E1; simpl in E; [| discriminate].
  assert (H1 : routed A m s1).
  { change (routed A m (fst (fst (s1, o, pc)))).
    refine (foldM_inv (fun st : gst * option nat * list nat => routed A m (fst (fst st))) (fun _ => True) (down_row so A (cols m)) (seq 0 (rows m)) _ _ (m, [], Some 0, []) _ _ E1).
    - intros [[x p] l] b [[x' p'] l'] Hx _ Ex. simpl in *. destruct p as [p |]; [| congruence].
      destruct (find_pivot (fst x) b p (cols m - p)) as [[[q ns] |] |]; simpl in Ex; try discriminate; [| congruence].
      match type of Ex with (bind ?X _) = _ => destruct X as [y |] eqn:Ey; simpl in Ex; [| discriminate] end.
      inversion Ex; subst. eapply reduce_routed; eauto.
    - apply Forall_forall; auto.
    - simpl. split; [reflexivity | constructor]. }
  destruct full; simpl in E.
  - destruct (foldM (up_row so A pc) (rev (seq 0 (length pc))) s1) as [s2 |] eqn:E2; simpl in E; [| discriminate].
    inversion E; subst.
    refine (foldM_inv (routed A m) (fun _ => True) (up_row so A pc) _ _ _ s1 _ H1 E2); [| apply Forall_forall; auto].
    intros x b x' Hx _ Ex. unfold up_row in Ex.
    destruct (of_opt IndexError (nth_error pc b)) as [p |]; simpl in Ex; [| discriminate].
    destruct (ones (fst x) p (seq 0 b)) as [ns |]; simpl in Ex; [| discriminate].
    destruct ns; [congruence |]. eapply reduce_routed; eauto.
  - inversion E; subst. exact H1.
Qed.

(** ** rec_steiner_gauss *)
Definition pathok (A : arch) (p : list edge) : Prop := Forall (fun e => joined A (fst e) (snd e)) p.
Definition distok (A : arch) (d : dists) : Prop := forall k n p, In (k, (n, p)) d -> pathok A p.
Lemma pget_ok : forall A d k n p, distok A d -> pget k d = Some (n, p) -> pathok A p.
Proof.
  intros A. induction d as [| [k' [n' p']] d IH]; intros k n p H E; simpl in E; [discriminate |].
  destruct (eeqb k k'); [inversion E; subst; eapply H; left; reflexivity |].
  eapply IH; [| exact E]. intros x y z Hx. eapply H. right. exact Hx.
Qed.
Lemma pset_ok : forall A k n p d, distok A d -> pathok A p -> distok A (pset k (n, p) d).
Proof.
  intros A k n p. induction d as [| [k' v'] d IH]; intros H Hp x y z Hx; simpl in Hx.
  - destruct Hx as [Hx | []]. inversion Hx; subst. exact Hp.
  - destruct (eeqb k k'); destruct Hx as [Hx | Hx].
    + inversion Hx; subst. exact Hp.
    + eapply H. right. exact Hx.
    + eapply H. left. exact Hx.
    + eapply IH; [| exact Hp | exact Hx]. intros a b c Hc. eapply H. right. exact Hc.
Qed.
Lemma pathok_app : forall A p q, pathok A p -> pathok A q -> pathok A (p ++ q).
Proof. intros. apply Forall_app. auto. Qed.
Lemma of_opt_ok : forall {X} e (o : option X) x, of_opt e o = Ok x -> o = Some x.
Proof. intros X e [y |] x H; simpl in H; [congruence | discriminate]. Qed.
Lemma fw_step_ok : forall A up v0 v1 d v2 d', distok A d -> fw_step up v0 v1 d v2 = Ok d' -> distok A d'.
Proof.
  intros A up v0 v1 d v2 d' H E. unfold fw_step in E.
  destruct (pget (v0, v1) d) as [[n1 p1] |] eqn:E1; [| inversion E; subst; exact H].
  destruct (pget (v1, v2) d) as [[n2 p2] |] eqn:E2; [| inversion E; subst; exact H].
  pose proof (pget_ok _ _ _ _ _ H E1). pose proof (pget_ok _ _ _ _ _ H E2).
  cbv zeta in E. match type of E with (if ?b then _ else _) = _ => destruct b; [| inversion E; subst; exact H] end.
  assert (D : distok A (pset (v0, v2) (n1 + n2, p1 ++ p2) d)) by (apply pset_ok; [exact H | apply pathok_app; auto]).
  destruct up; [| inversion E; subst; exact D]. revert E D. generalize (pset (v0, v2) (n1 + n2, p1 ++ p2) d). intros d2 E D.
  destruct (of_opt KeyError (pget (v0, v1) d2)) as [a |]; simpl in E; [| discriminate].
  destruct (of_opt KeyError (pget (v1, v2) d2)) as [b |]; simpl in E; [| discriminate].
  destruct (of_opt KeyError (pget (v2, v1) d2)) as [[xn xp] |] eqn:Ex; simpl in E; [| discriminate].
  destruct (of_opt KeyError (pget (v1, v0) d2)) as [[yn yp] |] eqn:Ey; simpl in E; [| discriminate].
  apply of_opt_ok in Ex. apply of_opt_ok in Ey. inversion E; subst.
  apply pset_ok; [exact D |]. apply pathok_app; simpl; eapply pget_ok; eauto.
Qed.
Lemma all_true : forall {X} (l : list X), Forall (fun _ => True) l.
Proof. intros. apply Forall_forall. auto. Qed.
Lemma floyd_ok : forall A vs up rec d, floyd_warshall A vs up rec = Ok d -> distok A d.
Proof.
  intros A vs up rec d E. unfold floyd_warshall in E.
  refine (foldM_inv (distok A) (fun _ => True) _ (vs ++ vs) _ (all_true _) _ _ _ E).
  - intros x v0 x' Hx _ Ex. refine (foldM_inv (distok A) (fun _ => True) _ vs _ (all_true _) _ _ Hx Ex).
    intros y v1 y' Hy _ Ey. refine (foldM_inv (distok A) (fun _ => True) _ vs _ (all_true _) _ _ Hy Ey).
    intros z v2 z' Hz _ Ez. eapply fw_step_ok; eauto.
  - clear E. assert (D : forall l, (forall e, In e l -> In e (a_es A)) -> forall d0, distok A d0 -> distok A (fold_left (fw_edge A vs rec up) l d0)).
    { induction l as [| [a b] l IH]; intros Hl d0 H0; simpl; [exact H0 |]. apply IH; [intros; apply Hl; right; auto |].
      assert (J : joined A a b) by (left; apply Hl; left; reflexivity).
      assert (P1 : pathok A [(a, b)]) by (constructor; [exact J | constructor]).
      assert (P2 : pathok A [(b, a)]) by (constructor; [apply joined_sym; exact J | constructor]).
      destruct (memb a vs && memb b vs); [| exact H0].
      destruct (up || (memb a rec && memb b rec)); [apply pset_ok; [apply pset_ok; auto | auto] |].
      destruct (Nat.ltb (a_qub A b) (a_qub A a)); apply pset_ok; auto. }
    assert (D2 : forall l d0, distok A d0 -> distok A (fold_left (fun d v => pset (v, v) (0, []) d) l d0)).
    { induction l as [| v l IH]; intros d0 H0; simpl; [exact H0 |]. apply IH. apply pset_ok; [exact H0 | constructor]. }
    apply D2. apply D; [auto | intros k n p []].
Qed.
Lemma min_by_in : forall {X} (key : X -> nat) l b, In (min_by key b l) (b :: l).
Proof.
  intros X key. induction l as [| x l IH]; intros b; simpl; [left; reflexivity |].
  destruct (Nat.ltb (key x) (key b)).
  - destruct (IH x) as [H | H]; [right; left; exact H | right; right; exact H].
  - destruct (IH b) as [H | H]; [left; exact H | right; right; exact H].
Qed.
Lemma rec_prim_ok : forall A d, distok A d -> forall fuel nodes vs es ps vs' es' ps',
  pathok A es -> rec_prim fuel d nodes vs es ps = Ok (vs', es', ps') -> pathok A es'.
Proof.
  intros A d HD. induction fuel as [| f IH]; intros nodes vs es ps vs' es' ps' H E; destruct nodes as [| n nodes]; simpl in E;
    try (inversion E; subst; exact H); try discriminate.
  match type of E with (match ?L with _ => _ end) = _ => destruct L as [| c cs] eqn:EL; [discriminate |] end.
  eapply IH; [| exact E]. apply pathok_app; [exact H |].
  pose proof (min_by_in (fun c : nat * (nat * list edge) => fst (snd c)) cs c) as M. 
  set (b := min_by _ c cs) in *. clearbody b. rewrite <- EL in M.
  assert (M' : exists node v, pget (v, node) d = Some (snd b)).
  { change (In b (flat_map (fun node => flat_map (fun v => match pget (v, node) d with Some x => [(node, x)] | None => [] end) (vs ++ ps)) (n :: nodes))) in M.
    apply in_flat_map in M. destruct M as [node [_ M]]. apply in_flat_map in M. destruct M as [v [_ M]].
    exists node, v. destruct (pget (v, node) d) as [x |]; [| destruct M]. destruct M as [<- | []]. reflexivity. }
  destruct M' as [node [v M']]. destruct (snd b) as [k p]. eapply pget_ok; eauto.
Qed.
Lemma down_ok : forall so (P : edge -> Prop) es, Forall P es -> forall fuel vs y out r,
  Forall P out -> yield_down so fuel es vs y out = Ok r -> Forall P r.
Proof.
  intros so P es He. induction fuel as [| f IH]; intros vs y out r H E; simpl in E; destruct (Nat.leb _ _); try (inversion E; subst; exact H); try discriminate.
  eapply IH; [| exact E]. apply Forall_app. split; [exact H |].
  apply Forall_forall. intros e Hi. apply in_flat_map in Hi. destruct Hi as [e' [I1 I2]]. apply in_flat_map in I2.
  destruct I2 as [v [_ I2]]. destruct (Nat.eqb (fst e') v); [| destruct I2]. destruct I2 as [<- | []].
  rewrite Forall_forall in He. auto.
Qed.
Lemma filter_Forall : forall {X} (P : X -> Prop) f l, Forall P l -> Forall P (filter f l).
Proof. intros X P f l H. rewrite Forall_forall in *. intros x Hx. apply filter_In in Hx. apply H. tauto. Qed.
Lemma leaf_ok : forall (P : edge -> Prop) vs st, Forall P (fst st) -> Forall P (snd st) ->
  Forall P (fst (fold_left leaf_step vs st)) /\ Forall P (snd (fold_left leaf_step vs st)).
Proof.
  intros P. induction vs as [| v vs IH]; intros [es out] H1 H2; simpl in *; [auto |].
  apply IH; simpl; [apply filter_Forall; exact H1 |]. apply Forall_app. split; [exact H2 | apply filter_Forall; exact H1].
Qed.
Lemma up_ok : forall (P : edge -> Prop) fuel vs ps es out r, Forall P es -> Forall P out -> yield_up fuel vs ps es out = Ok r -> Forall P r.
Proof.
  intros P. induction fuel as [| f IH]; intros vs ps es out r H1 H2 E; destruct es as [| e es]; simpl in E; try (inversion E; subst; exact H2); try discriminate.
  match type of E with (let '(_, _) := fold_left leaf_step ?L ?S in _) = _ => destruct (leaf_ok P L S H1 H2) as [A1 A2]; destruct (fold_left leaf_step L S) as [es1 out1] end.
  eapply IH; [exact A1 | exact A2 | exact E].
Qed.
Lemma rec_tree_linked : forall so eo fuel A start terms us rec upper t, (forall l e, In e (eo l) -> In e l) ->
  rec_steiner_tree so eo fuel A start terms us rec upper = Ok t -> Forall (linked A) (fst t) /\ Forall (linked A) (snd t).
Proof.
  intros so eo fuel A start terms us rec upper t Heo E. unfold rec_steiner_tree in E.
  destruct (negb _); [discriminate |].
  destruct (q2v A start) as [st |]; simpl in E; [| discriminate].
  destruct (mapR (q2v A) us) as [u |]; simpl in E; [| discriminate].
  destruct (mapR (q2v A) terms) as [nodes |]; simpl in E; [| discriminate].
  destruct (mapR (q2v A) rec) as [rc |]; simpl in E; [| discriminate].
  destruct (floyd_warshall A u upper rc) as [d |] eqn:Ed; simpl in E; [| discriminate]. apply floyd_ok in Ed.
  destruct (rec_prim (length nodes) d nodes [st] [] []) as [[[vs es] ps] |] eqn:Er; simpl in E; [| discriminate].
  apply (rec_prim_ok A d Ed) in Er; [| constructor].
  assert (Q : pathok A (eo (nodup edge_dec es))).
  { unfold pathok in *. rewrite Forall_forall in *. intros e He. apply Heo in He. apply nodup_In in He. auto. }
  set (es1 := eo (nodup edge_dec es)) in *. clearbody es1.
  destruct (yield_down so fuel es1 [st] [] []) as [dn |] eqn:E1; simpl in E; [| discriminate].
  destruct (yield_up fuel vs ps es1 []) as [upl |] eqn:E2; simpl in E; [| discriminate].
  apply (down_ok so _ es1 Q) in E1; [| constructor]. apply (up_ok _ fuel vs ps es1 [] upl Q) in E2; [| constructor].
  inversion E; subst; simpl.
  assert (G : forall l, pathok A l -> Forall (linked A) (map (qedge A) l)).
  { intros l Hl. apply Forall_forall. intros x Hx. apply in_map_iff in Hx. destruct Hx as [[a b] [<- Hx]].
    unfold pathok in Hl. rewrite Forall_forall in Hl. exists a, b. split; [exact (Hl _ Hx) | auto]. }
  split; apply G; assumption.
Qed.
Lemma col_zeros_ok : forall (P : edge -> Prop) col es z, Forall P es -> col_zeros col es = Ok z -> Forall P z.
Proof.
  intros P col. induction es as [| e es IH]; intros z H E; simpl in E; [inversion E; constructor |].
  inversion H; subst. destruct (cget col (fst e)) as [b |]; simpl in E; [| discriminate].
  destruct (col_zeros col es) as [z' |]; simpl in E; [| discriminate]. inversion E; subst.
  destruct b; [apply IH; auto | constructor; [auto | apply IH; auto]].
Qed.
Lemma column_linked : forall so eo fuel A col root nodes us rec upper es, (forall l e, In e (eo l) -> In e l) ->
  steiner_reduce_column so eo fuel A col root nodes us rec upper = Ok es -> Forall (linked A) es.
Proof.
  intros so eo fuel A col root nodes us rec upper es Heo E. unfold steiner_reduce_column in E.
  destruct (rec_steiner_tree so eo fuel A root nodes us rec upper) as [t |] eqn:Et; simpl in E; [| discriminate].
  destruct (rec_tree_linked _ _ _ _ _ _ _ _ _ _ Heo Et) as [T1 T2].
  set (P := fun st : list bool * list edge => Forall (linked A) (snd st)).
  assert (SN : forall l e, Forall (linked A) l -> linked A e -> Forall (linked A) (l ++ [e])) by (intros; apply Forall_app; auto).
  match type of E with (bind ?X _) = _ => destruct X as [st |] eqn:E1; simpl in E; [| discriminate] end.
  assert (H1 : P st).
  { destruct upper.
    - destruct (col_zeros col (fst t)) as [z |] eqn:Ez; simpl in E1; [| discriminate].
      apply (col_zeros_ok (linked A)) in Ez; [| exact T1].
      refine (foldM_inv P (linked A) col_fill (rev z) _ (Forall_rev Ez) _ _ _ E1); [| constructor].
      intros [c o] [a b] x' Hx Hb Ex. simpl in Ex. destruct (cget c a) as [v |]; simpl in Ex; [| discriminate].
      destruct v; [inversion Ex; subst; exact Hx |]. destruct (cadd c b a) as [c' |]; simpl in Ex; [| discriminate].
      inversion Ex; subst. apply SN; [exact Hx | apply linked_sym; exact Hb].
    - refine (foldM_inv P (linked A) col_down (fst t) _ T1 _ _ _ E1); [| constructor].
      intros [c o] [a b] x' Hx Hb Ex. simpl in Ex. destruct (cget c b) as [v |]; simpl in Ex; [| discriminate].
      destruct v; [inversion Ex; subst; exact Hx |]. destruct (cadd c a b) as [c' |]; simpl in Ex; [| discriminate].
      inversion Ex; subst. apply SN; [exact Hx | exact Hb]. }
  destruct (foldM col_up (snd t) st) as [st2 |] eqn:E2; simpl in E; [| discriminate]. inversion E; subst.
  refine (foldM_inv P (linked A) col_up (snd t) _ T2 _ _ H1 E2).
  intros [c o] [a b] x' Hx Hb Ex. simpl in Ex. destruct (cadd c a b) as [c' |]; simpl in Ex; [| discriminate].
  inversion Ex; subst. apply SN; [exact Hx | exact Hb].
Qed.
Lemma rec_reduce_routed : forall so eo fuel A m col root nodes us rec upper s s', (forall l e, In e (eo l) -> In e l) -> routed A m s ->
  rec_reduce so eo fuel A col root nodes us rec upper s = Ok s' -> routed A m s'.
Proof.
  intros so eo fuel A m col root nodes us rec upper s s' Heo H E. unfold rec_reduce in E.
  destruct (negb _); [discriminate |].
  match type of E with (bind ?X _) = _ => destruct X as [column |]; simpl in E; [| discriminate] end.
  destruct (steiner_reduce_column so eo fuel A column root nodes us rec upper) as [cn |] eqn:Ec; simpl in E; [| discriminate].
  apply column_linked in Ec; [| exact Heo].
  refine (foldM_inv (routed A m) (linked A) _ cn _ Ec _ _ H E).
  intros x e x' Hx He Ex. simpl in Ex. destruct (_ && _); [| discriminate]. eapply routed_radd; eauto.
Qed.
Lemma rec_down_routed : forall so eo fuel A m, (forall l e, In e (eo l) -> In e l) -> forall pivots s s', routed A m s ->
  rec_down so eo fuel A pivots s = Ok s' -> routed A m s'.
Proof.
  intros so eo fuel A m Heo. induction pivots as [| c ps IH]; intros s s' H E; simpl in E; [congruence |].
  destruct (nodes_of (fst s) c (c :: ps)) as [ns |]; simpl in E; [| discriminate].
  match type of E with (bind ?X _) = _ => destruct X as [s1 |] eqn:E1; simpl in E; [| discriminate] end.
  eapply IH; [| exact E]. eapply rec_reduce_routed; eauto.
Qed.
Theorem rec_step_routed : forall so eo full A m, (forall l e, In e (eo l) -> In e l) -> forall fuel order s s', routed A m s ->
  rec_step so eo full A fuel order s = Ok s' -> routed A m s'.
Proof.
  intros so eo full A m Heo. induction fuel as [| f IH]; intros order s s' H E; [discriminate |].
  cbn [rec_step] in E.
  destruct (rec_down so eo (S f) A (sort order) s) as [s1 |] eqn:E1; cbn [bind] in E; [| discriminate].
  apply (rec_down_routed so eo (S f) A m Heo) in E1; [| exact H].
  destruct full; [| congruence]. clear H s. revert s1 s' E1 E.
  induction order as [| c rest IHo]; intros s s' H E; [congruence |].
  destruct (shortest_path A c (fold_right Nat.max 0 (c :: rest))) as [path |]; cbn [bind] in E; [| discriminate].
  destruct path as [p |]; [| discriminate].
  destruct (nodes_of (fst s) c (c :: rest)) as [ns |]; cbn [bind] in E; [| discriminate].
  match type of E with (bind ?X _) = _ => destruct X as [s2 |] eqn:E2; cbn [bind] in E; [| discriminate] end.
  match type of E with (bind ?X _) = _ => destruct X as [s3 |] eqn:E3; cbn [bind] in E; [| discriminate] end.
  apply (IHo s3 s'); [| exact E].
  assert (H2 : routed A m s2).
  { destruct (Nat.ltb 1 (length ns)); [| congruence]. eapply rec_reduce_routed; eauto. }
  destruct (Nat.ltb 1 (length (map (a_qub A) p))); [eapply IH; eauto | congruence].
Qed.
Theorem rec_gauss_routed : forall so eo fuel A order full m s, (forall l e, In e (eo l) -> In e l) ->
  rec_steiner_gauss so eo fuel A order full m = Ok s -> routed A m s.
Proof.
  intros so eo fuel A order full m s Heo E. eapply rec_step_routed; [exact Heo | | exact E].
  split; [reflexivity | constructor].
Qed.

(** ** In terms of the edges *)
Lemma routed_spec : forall A m s, routed A m s -> fst s = track_x row_add (snd s) m /\
  forall a b, In (a, b) (snd s) -> exists v w, (In (v, w) (a_es A) \/ In (w, v) (a_es A)) /\ a_qub A v = a /\ a_qub A w = b.
Proof. intros A m s [H1 H2]. split; [exact H1 |]. intros a b H. rewrite Forall_forall in H2. exact (H2 (a, b) H). Qed.
Theorem gauss_routed_spec : forall so A full m s r, arch_ok A -> steiner_gauss so A full m = Ok (s, r) ->
  fst s = track_x row_add (snd s) m /\
  forall a b, In (a, b) (snd s) -> exists v w, (In (v, w) (a_es A) \/ In (w, v) (a_es A)) /\ a_qub A v = a /\ a_qub A w = b.
Proof. intros. apply routed_spec. eapply gauss_routed; eauto. Qed.
Theorem rec_routed_spec : forall so eo fuel A order full m s, (forall l e, In e (eo l) -> In e l) ->
  rec_steiner_gauss so eo fuel A order full m = Ok s ->
  fst s = track_x row_add (snd s) m /\
  forall a b, In (a, b) (snd s) -> exists v w, (In (v, w) (a_es A) \/ In (w, v) (a_es A)) /\ a_qub A v = a /\ a_qub A w = b.
Proof. intros. apply routed_spec. eapply rec_gauss_routed; eauto. Qed.

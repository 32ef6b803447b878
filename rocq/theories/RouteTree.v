(** The tree of steiner_tree: it is a tree that grows downwards from the root and contains all the
    wanted qubits (RouteModel). *)
From Coq Require Import List Bool Arith Lia.
From Verif Require Import Base LinModel RouteModel RouteProofs.
Import ListNotations.

(** ** Specification *)
(** [n] vertices, every qubit on the vertex of the same number; the neighbours are given by the
    edges, each listed once *)
Definition placed (A : arch) (n : nat) : Prop :=
  a_vs A = seq 0 n /\ a_map A = seq 0 n /\ (forall v, v < n -> a_qub A v = v) /\
  (forall v w, In w (a_nb A v) <-> joined A v w) /\ (forall v, NoDup (a_nb A v)).
Fixpoint topdown (seen : list nat) (es : list edge) : Prop :=
  match es with [] => True | e :: es => In (fst e) seen /\ ~ In (snd e) seen /\ topdown (seen ++ [snd e]) es end.

Lemma memb_spec : forall x l, memb x l = true <-> In x l.
Proof.
  intros x l. unfold memb. rewrite existsb_exists. split.
  - intros [y [H E]]. apply Nat.eqb_eq in E. congruence.
  - intros H. exists x. split; [exact H | apply Nat.eqb_refl].
Qed.
Lemma memb_false : forall x l, memb x l = false <-> ~ In x l.
Proof. intros x l. rewrite <- memb_spec. destruct (memb x l); split; congruence. Qed.

(** ** Paths in the dictionary of distances *)
Section Chain.
  Variables (A : arch) (vs : list nat).
  Fixpoint chain (u : nat) (p : list edge) (w : nat) : Prop :=
    match p with [] => u = w | e :: p => fst e = u /\ joined A u (snd e) /\ In (snd e) vs /\ chain (snd e) p w end.
  Lemma chain_app : forall p u v q w, chain u p v -> chain v q w -> chain u (p ++ q) w.
  Proof. induction p as [| e p IH]; intros u v q w H1 H2; simpl in *; [subst; exact H2 |]. destruct H1 as [a [b [c d]]]. repeat split; eauto. Qed.
  Definition dchain (d : dists) : Prop := forall u w n p, In ((u, w), (n, p)) d -> chain u p w.
  Lemma eeqb_spec : forall e f, eeqb e f = true -> e = f.
  Proof. intros [a b] [c d] H. unfold eeqb in H. simpl in H. apply andb_true_iff in H. destruct H as [X Y]. apply Nat.eqb_eq in X, Y. congruence. Qed.
  Lemma pget_in : forall d k v, pget k d = Some v -> In (k, v) d.
  Proof.
    induction d as [| [k' v'] d IH]; intros k v E; simpl in E; [discriminate |].
    destruct (eeqb k k') eqn:Ek; [apply eeqb_spec in Ek; left; congruence | right; apply IH; exact E].
  Qed.
  Lemma pset_in : forall k v d k0 v0, In (k0, v0) (pset k v d) -> (k0 = k /\ v0 = v) \/ In (k0, v0) d.
  Proof.
    intros k v. induction d as [| [k' v'] d IH]; intros k0 v0 H; simpl in H.
    - destruct H as [H | []]. inversion H; auto.
    - destruct (eeqb k k') eqn:Ek; [apply eeqb_spec in Ek; subst k'|]; destruct H as [H | H].
      + inversion H; auto.
      + right; right; exact H.
      + right; left; exact H.
      + destruct (IH _ _ H); [left; auto | right; right; auto].
  Qed.
  Lemma pset_chain : forall u w n p d, dchain d -> chain u p w -> dchain (pset (u, w) (n, p) d).
  Proof. intros u w n p d H C a b m q Hi. apply pset_in in Hi. destruct Hi as [[X Y] | Hi]; [inversion X; inversion Y; subst; exact C | eapply H; exact Hi]. Qed.
  Lemma fw_step_chain : forall up v0 v1 d v2 d', dchain d -> fw_step up v0 v1 d v2 = Ok d' -> dchain d'.
  Proof.
    intros up v0 v1 d v2 d' H E. unfold fw_step in E.
    destruct (pget (v0, v1) d) as [[n1 p1] |] eqn:E1; [| inversion E; subst; exact H].
    destruct (pget (v1, v2) d) as [[n2 p2] |] eqn:E2; [| inversion E; subst; exact H].
    apply pget_in in E1. apply pget_in in E2. apply H in E1. apply H in E2.
    cbv zeta in E. match type of E with (if ?b then _ else _) = _ => destruct b; [| inversion E; subst; exact H] end.
    assert (D : dchain (pset (v0, v2) (n1 + n2, p1 ++ p2) d)) by (apply pset_chain; [exact H | eapply chain_app; eauto]).
    destruct up; [| inversion E; subst; exact D]. revert E D. generalize (pset (v0, v2) (n1 + n2, p1 ++ p2) d). intros d2 E D.
    destruct (of_opt KeyError (pget (v0, v1) d2)) as [a |]; simpl in E; [| discriminate].
    destruct (of_opt KeyError (pget (v1, v2) d2)) as [b |]; simpl in E; [| discriminate].
    destruct (of_opt KeyError (pget (v2, v1) d2)) as [[xn xp] |] eqn:Ex; simpl in E; [| discriminate].
    destruct (of_opt KeyError (pget (v1, v0) d2)) as [[yn yp] |] eqn:Ey; simpl in E; [| discriminate].
    apply of_opt_ok, pget_in, D in Ex. apply of_opt_ok, pget_in, D in Ey. inversion E; subst.
    apply pset_chain; [exact D |]. eapply chain_app; eauto.
  Qed.
  Lemma floyd_chain : forall up rec d, floyd_warshall A vs up rec = Ok d -> dchain d.
  Proof.
    intros up rec d E. unfold floyd_warshall in E.
    refine (foldM_inv dchain (fun _ => True) _ (vs ++ vs) _ (all_true _) _ _ _ E).
    - intros x v0 x' Hx _ Ex. refine (foldM_inv dchain (fun _ => True) _ vs _ (all_true _) _ _ Hx Ex).
      intros y v1 y' Hy _ Ey. refine (foldM_inv dchain (fun _ => True) _ vs _ (all_true _) _ _ Hy Ey).
      intros z v2 z' Hz _ Ez. eapply fw_step_chain; eauto.
    - clear E. assert (D : forall l, (forall e, In e l -> In e (a_es A)) -> forall d0, dchain d0 -> dchain (fold_left (fw_edge A vs rec up) l d0)).
      { induction l as [| [a b] l IH]; intros Hl d0 H0; simpl; [exact H0 |]. apply IH; [intros; apply Hl; right; auto |].
        assert (J : joined A a b) by (left; apply Hl; left; reflexivity).
        destruct (memb a vs && memb b vs) eqn:EM; [| exact H0]. apply andb_true_iff in EM. rewrite !memb_spec in EM.
        assert (P1 : chain a [(a, b)] b) by (simpl; tauto).
        assert (P2 : chain b [(b, a)] a) by (simpl; repeat split; auto using joined_sym; tauto).
        destruct (up || (memb a rec && memb b rec)); [apply pset_chain; [apply pset_chain; auto | auto] |].
        destruct (Nat.ltb (a_qub A b) (a_qub A a)); apply pset_chain; auto. }
      assert (D2 : forall l d0, dchain d0 -> dchain (fold_left (fun d v => pset (v, v) (0, []) d) l d0)).
      { induction l as [| v l IH]; intros d0 H0; simpl; [exact H0 |]. apply IH. apply pset_chain; [exact H0 | reflexivity]. }
      apply D2. apply D; [auto | intros u w k p []].
  Qed.

  (** ** The vertices of the tree *)
  Inductive conn (T : list nat) (root : nat) : nat -> Prop :=
  | conn_root : conn T root root
  | conn_step : forall x y, conn T root x -> joined A x y -> In y T -> conn T root y.
  Lemma conn_mono : forall T T' root x, (forall y, In y T -> In y T') -> conn T root x -> conn T' root x.
  Proof. intros T T' root x H C. induction C; [constructor | econstructor; eauto]. Qed.
  Lemma set_add_in : forall v s x, In x (set_add v s) <-> x = v \/ In x s.
  Proof.
    intros v s x. unfold set_add. destruct (memb v s) eqn:E.
    - apply memb_spec in E. split; [auto | intros [-> | H]; auto].
    - rewrite in_app_iff. simpl. intuition.
  Qed.
  Lemma fold_add_in : forall (p : list edge) t x, In x (fold_left (fun t e => set_add (snd e) t) p t) <-> In x (map snd p) \/ In x t.
  Proof.
    induction p as [| e p IH]; intros t x; simpl; [intuition |]. rewrite IH, set_add_in. intuition.
  Qed.
  Lemma chain_conn : forall T root p u w, conn T root u -> chain u p w -> (forall x, In x (map snd p) -> In x T) ->
    conn T root w /\ forall x, In x (map snd p) -> conn T root x.
  Proof.
    intros T root. induction p as [| e p IH]; intros u w C H HT; simpl in *; [subst; split; [exact C | intros x []] |].
    destruct H as [H1 [H2 [H3 H4]]].
    assert (C2 : conn T root (snd e)) by (eapply conn_step; [exact C | exact H2 | apply HT; auto]).
    destruct (IH (snd e) w C2 H4 ltac:(intros; apply HT; auto)) as [K1 K2]. split; [exact K1 |].
    intros x [<- | Hx]; auto.
  Qed.
  Lemma chain_vs : forall p u w x, chain u p w -> In x (map snd p) -> In x vs.
  Proof. induction p as [| e p IH]; intros u w x H Hx; simpl in *; [tauto |]. destruct H as [_ [_ [H3 H4]]]. destruct Hx as [<- | Hx]; eauto. Qed.
  Definition treeok (root : nat) (T : list nat) : Prop := In root T /\ (forall x, In x T -> conn T root x) /\ (forall x, In x T -> In x vs).
  Lemma prim_ok : forall so d root, (forall l x, In x (so l) -> In x l) -> dchain d -> forall fuel rem T T',
    treeok root T -> (forall x, In x rem -> In x vs) -> prim so fuel d rem T = Ok T' ->
    treeok root T' /\ (forall x, In x T -> In x T') /\ (forall x, In x rem -> In x T').
  Proof.
    intros so d root Hso HD. induction fuel as [| f IH]; intros rem T T' HT HR E; destruct rem as [| r0 rem]; cbn [prim] in E; try discriminate;
      try (inversion E; subst; repeat split; try (apply HT); auto; intros x []).
    set (R := r0 :: rem) in *.
    destruct (candidates so d R T) as [| c cs] eqn:EC; [discriminate |].
    pose proof (min_by_in (fun c : nat * (nat * list edge) => fst (snd c)) cs c) as M.
    set (b := min_by _ c cs) in *. clearbody b. rewrite <- EC in M. unfold candidates in M.
    apply in_flat_map in M. destruct M as [node [M1 M]]. apply in_flat_map in M. destruct M as [v [M2 M]].
    apply Hso in M1. apply Hso in M2.
    destruct (pget (v, node) d) as [[k p] |] eqn:Ep; [| destruct M]. destruct M as [<- | []]. cbn [fst snd] in E.
    apply pget_in, HD in Ep.
    set (T1 := fold_left (fun t e => set_add (snd e) t) p (set_add node T)) in *.
    assert (I1 : forall x, In x T1 <-> In x (map snd p) \/ x = node \/ In x T) by (intros x; unfold T1; rewrite fold_add_in, set_add_in; reflexivity).
    destruct HT as [T0 [TC TV]].
    assert (Mo : forall y, In y T -> In y T1) by (intros y Hy; apply I1; auto).
    destruct (chain_conn T1 root p v node) as [K1 K2].
    { apply (conn_mono T); auto. } { exact Ep. } { intros x Hx. apply I1; auto. }
    assert (HT1 : treeok root T1).
    { split; [apply Mo; exact T0 |]. split.
      - intros x Hx. apply I1 in Hx. destruct Hx as [Hx | [-> | Hx]]; auto. apply (conn_mono T); auto.
      - intros x Hx. apply I1 in Hx. destruct Hx as [Hx | [-> | Hx]]; auto. eapply chain_vs; eauto. }
    destruct (IH (filter (fun n => negb (Nat.eqb n node)) R) T1 T' HT1 ltac:(intros x Hx; apply HR; apply filter_In in Hx; tauto) E) as [G1 [G2 G3]].
    split; [exact G1 |]. split; [auto |]. intros x Hx.
    destruct (Nat.eq_dec x node) as [-> | Nx]; [apply G2; apply I1; auto |].
    apply G3. apply filter_In. split; [exact Hx |].
    apply Nat.eqb_neq in Nx. rewrite Nx. reflexivity.
  Qed.
End Chain.

(** ** Breadth first search *)
Lemma topdown_app : forall es seen es', topdown seen (es ++ es') <-> topdown seen es /\ topdown (seen ++ map snd es) es'.
Proof.
  induction es as [| e es IH]; intros seen es'; simpl; [rewrite app_nil_r; tauto |].
  rewrite IH, <- app_assoc. simpl. tauto.
Qed.
Lemma topdown_star : forall a ns seen, In a seen -> NoDup ns -> (forall v, In v ns -> ~ In v seen) -> topdown seen (map (fun v => (a, v)) ns).
Proof.
  intros a. induction ns as [| v ns IH]; intros seen Ha ND H; simpl; [exact I |]. inversion ND; subst.
  split; [exact Ha |]. split; [apply H; left; reflexivity |]. apply IH; auto.
  - apply in_app_iff; auto.
  - intros w Hw Hi. apply in_app_iff in Hi. destruct Hi as [Hi | [<- | []]]; [apply (H w); auto; right; auto | auto].
Qed.
Lemma nodup_filter : forall {X} (f : X -> bool) l, NoDup l -> NoDup (filter f l).
Proof.
  intros X f. induction l as [| x l IH]; intros H; simpl; [constructor |]. inversion H; subst.
  destruct (f x); [constructor; [rewrite filter_In; tauto | auto] | auto].
Qed.
Lemma bfs_ok : forall A n T root, placed A n -> (forall x, In x T -> x < n) -> In root T ->
  forall fuel vis q out es,
  vis = root :: map snd out -> topdown [root] out -> (forall x, In x q -> In x vis) -> (forall x, In x vis -> In x T) ->
  (forall x, In x vis -> In x q \/ forall y, joined A x y -> In y T -> In y vis) ->
  bfs A fuel T vis q out = Ok es ->
  topdown [root] es /\ (forall x, In x (root :: map snd es) -> In x T) /\
  (forall x y, In x (root :: map snd es) -> joined A x y -> In y T -> In y (root :: map snd es)).
Proof.
  intros A n T root [_ [_ [HQ [HN HND]]]] HT HR. induction fuel as [| f IH]; intros vis q out es HV TD Hq HvT HC E; destruct q as [| x q]; simpl in E; try discriminate;
    try (inversion E; subst; split; [exact TD |]; split; [exact HvT |]; intros x y Hx; destruct (HC x Hx) as [[] | Hy]; apply Hy).
  set (ns := filter (fun v => memb v T && negb (memb v vis)) (a_nb A x)) in *.
  assert (Ins : forall v, In v ns <-> joined A x v /\ In v T /\ ~ In v vis).
  { intros v. unfold ns. rewrite filter_In, HN, andb_true_iff, memb_spec, negb_true_iff, memb_false. tauto. }
  assert (Hx : In x vis) by (apply Hq; left; reflexivity).
  assert (EM : map (fun v => (a_qub A x, a_qub A v)) ns = map (fun v => (x, v)) ns).
  { apply map_ext_in. intros v Hv. rewrite !HQ; auto. apply HT. apply Ins in Hv. tauto. }
  assert (ES : map snd (map (fun v : nat => (x, v)) ns) = ns) by (rewrite map_map; simpl; apply map_id).
  rewrite EM in E. eapply IH; [ | | | | | exact E].
  - rewrite map_app, map_map. simpl. rewrite map_id, HV. reflexivity.
  - apply topdown_app. split; [exact TD |]. change ([root] ++ map snd out) with (root :: map snd out). rewrite <- HV.
    apply topdown_star; [exact Hx | apply nodup_filter; apply HND | intros v Hv; apply Ins in Hv; tauto].
  - intros v Hv. apply in_app_iff. apply in_app_iff in Hv. destruct Hv as [Hv | Hv]; [left; apply Hq; right; exact Hv | right; exact Hv].
  - intros v Hv. apply in_app_iff in Hv. destruct Hv as [Hv | Hv]; [auto | apply Ins in Hv; tauto].
  - intros v Hv. apply in_app_iff in Hv. destruct Hv as [Hv | Hv].
    + destruct (HC v Hv) as [[<- | Hi] | Hc].
      * right. intros y Jy Ty. apply in_app_iff. destruct (in_dec Nat.eq_dec y vis); [left; auto | right; apply Ins; auto].
      * left. apply in_app_iff. auto.
      * right. intros y Jy Ty. apply in_app_iff. auto.
    + left. apply in_app_iff. auto.
Qed.
Lemma mapR_id : forall (f : nat -> res nat) l ts, (forall x y, f x = Ok y -> y = x) -> mapR f l = Ok ts -> ts = l.
Proof.
  intros f. induction l as [| a l IH]; intros ts H E; simpl in E; [congruence |].
  destruct (f a) as [b |] eqn:Ea; simpl in E; [| discriminate]. destruct (mapR f l) as [bs |] eqn:El; simpl in E; [| discriminate].
  inversion E; subst. f_equal; auto.
Qed.
Lemma q2v_placed : forall A n q v, placed A n -> q2v A q = Ok v -> v = q /\ q < n.
Proof.
  intros A n q v [_ [H _]] E. unfold q2v in E. rewrite H in E. apply of_opt_ok in E.
  assert (L : q < n) by (rewrite <- (seq_length n 0); apply nth_error_Some; congruence).
  split; [| exact L]. apply (nth_error_nth _ _ 0) in E. rewrite seq_nth in E by exact L. lia.
Qed.
Lemma skipn_seq : forall n r, skipn r (seq 0 n) = seq r (n - r).
Proof.
  intros n r. assert (G : forall r n s, skipn r (seq s n) = seq (s + r) (n - r)).
  { induction r0 as [| r0 IH]; intros k s; [rewrite Nat.add_0_r, Nat.sub_0_r; reflexivity |].
    destruct k; simpl; [reflexivity |]. rewrite IH. f_equal. lia. }
  apply G.
Qed.
Theorem tree_ok : forall so A n root qs t, placed A n -> (forall l x, In x (so l) -> In x l) ->
  steiner_tree so A root qs true = Ok t ->
  exists es, t = map Some es ++ [None] ++ map Some (rev es) ++ [None] /\ topdown [root] es /\ root < n /\
    (forall q, In q qs -> q = root \/ In q (map snd es)) /\ (forall x, In x (map snd es) -> root <= x < n) /\
    exists d T, floyd_warshall A (seq root (n - root)) true [] = Ok d /\
      (let rem := filter (fun m => negb (m =? root)) (nodup Nat.eq_dec qs) in prim so (length rem) d rem [root] = Ok T) /\
      (forall x, In x (map snd es) -> In x T).
Proof.
  intros so A n root qs t HP Hso E. unfold steiner_tree in E.
  destruct (q2v A root) as [rv |] eqn:Er; simpl in E; [| discriminate].
  destruct (q2v_placed A n root rv HP Er) as [-> Lr].
  destruct (mapR (q2v A) qs) as [ts |] eqn:Et; simpl in E; [| discriminate].
  assert (ts = qs) by (apply (mapR_id (q2v A)); [intros x y Hx; apply (q2v_placed A n x y HP Hx) | exact Et]). subst ts.
  destruct (forallb (fun n => root <=? n) (nodup Nat.eq_dec qs)) eqn:EF; cbn [negb] in E; [| discriminate].
  destruct (negb _); [discriminate |]. destruct (negb _); [discriminate |].
  rewrite forallb_forall in EF.
  assert (Lq : forall x, In x qs -> x < n).
  { intros x Hx. clear - HP Et Hx. assert (G : forall l ts, mapR (q2v A) l = Ok ts -> In x l -> x < n).
    { induction l as [| a l IH]; intros ts E H; simpl in *; [tauto |].
      destruct (q2v A a) as [b |] eqn:Ea; simpl in E; [| discriminate]. destruct (mapR (q2v A) l) as [bs |] eqn:El; simpl in E; [| discriminate].
      destruct H as [-> | H]; [apply (q2v_placed A n x b HP Ea) | eapply IH; eauto]. }
    eapply G; eauto. }
  assert (HV : skipn root (a_vs A) = seq root (n - root)) by (destruct HP as [-> _]; apply skipn_seq).
  rewrite HV in E.
  destruct (floyd_warshall A (seq root (n - root)) true []) as [d |] eqn:Ed0; simpl in E; [| discriminate].
  pose proof (floyd_chain _ _ _ _ _ Ed0) as Ed.
  set (rem := filter (fun m => negb (m =? root)) (nodup Nat.eq_dec qs)) in *.
  destruct (prim so (length rem) d rem [root]) as [T |] eqn:EP; simpl in E; [| discriminate].
  destruct (prim_ok A (seq root (n - root)) so d root Hso Ed (length rem) rem [root] T) as [[T0 [TC TV]] [_ TR]]; [| | exact EP |].
  { split; [left; reflexivity |]. split; [intros x [<- | []]; constructor | intros x [<- | []]; apply in_seq; lia]. }
  { intros x Hx. unfold rem in Hx. apply filter_In in Hx. destruct Hx as [Hx _]. specialize (EF x Hx). apply Nat.leb_le in EF.
    apply nodup_In in Hx. apply Lq in Hx. apply in_seq. lia. }
  destruct (bfs A (S (length T)) T [root] [root] []) as [es |] eqn:EB; simpl in EB, E; rewrite ?EB in E; simpl in E; [| discriminate].
  destruct (bfs_ok A n T root HP ltac:(intros x Hx; apply TV, in_seq in Hx; lia) T0 (S (length T)) [root] [root] [] es) as [B1 [B2 B3]];
    [reflexivity | exact I | auto | intros x [<- | []]; exact T0 | intros x Hx; left; exact Hx | exact EB |].
  exists es. split; [inversion E; reflexivity |]. split; [exact B1 |]. split; [exact Lr |]. split.
  - intros q Hq. destruct (Nat.eq_dec q root) as [-> | Nq]; [left; reflexivity | right].
    assert (Hr : In q T). { apply TR. unfold rem. apply filter_In. split; [apply nodup_In; exact Hq |]. apply Nat.eqb_neq in Nq. rewrite Nq. reflexivity. }
    assert (G : forall x, conn A T root x -> In x (root :: map snd es)).
    { intros x C. induction C; [left; reflexivity | eapply B3; eauto]. }
    destruct (G q (TC q Hr)) as [X | X]; [congruence | exact X].
  - split; [intros x Hx; specialize (TV x (B2 x (or_intror Hx))); apply in_seq in TV; lia |].
    exists d, T. split; [reflexivity |]. split; [exact EP |]. intros x Hx. apply B2. right. exact Hx.
Qed.

(** steiner_gauss does not raise on a connected architecture, and it reaches echelon form on lines
    and on complete architectures (RouteModel). *)
From Coq Require Import List Bool Arith Lia.
From Verif Require Import Base LinModel LinProofs LinAlg LinFacts RouteModel RouteProofs RouteTree RouteEch RouteFW.
Import ListNotations.

(** ** Specification *)
(** the vertices form a line in the order of their numbers *)
Definition is_line (A : arch) (n : nat) : Prop := forall v w, joined A v w <-> (v < n /\ w < n /\ (w = S v \/ v = S w)).
(** every two vertices are joined *)
Definition is_complete (A : arch) (n : nat) : Prop := forall v w, v < n -> w < n -> v <> w -> joined A v w.
(** floyd_warshall finds a path between any two vertices from [root] on *)
Definition spans (A : arch) (n : nat) : Prop := forall root, root < n -> exists d, floyd_warshall A (seq root (n - root)) true [] = Ok d /\
  forall u w, root <= u < n -> root <= w < n -> pget (u, w) d <> None.

Lemma prim_all : forall so d (Q : nat -> Prop), (forall l x, In x (so l) -> In x l) ->
  (forall v node k p x, Q v -> Q node -> pget (v, node) d = Some (k, p) -> In x (map snd p) -> Q x) ->
  forall fuel rem T T', (forall x, In x T -> Q x) -> (forall x, In x rem -> Q x) -> prim so fuel d rem T = Ok T' -> forall x, In x T' -> Q x.
Proof.
  intros so d Q Hso HQ. induction fuel as [| f IH]; intros rem T T' HT HR E; destruct rem as [| r0 rem]; cbn [prim] in E; try discriminate;
    try (inversion E; subst; exact HT).
  set (R := r0 :: rem) in *. destruct (candidates so d R T) as [| c cs] eqn:EC; [discriminate |].
  pose proof (min_by_in (fun c : nat * (nat * list edge) => fst (snd c)) cs c) as M.
  set (b := min_by _ c cs) in *. clearbody b. rewrite <- EC in M. unfold candidates in M.
  apply in_flat_map in M. destruct M as [node [M1 M]]. apply in_flat_map in M. destruct M as [v [M2 M]].
  apply Hso in M1. apply Hso in M2.
  destruct (pget (v, node) d) as [[k p] |] eqn:Ep; [| destruct M]. destruct M as [<- | []]. cbn [fst snd] in E.
  refine (IH _ _ T' _ _ E).
  - intros x Hx. apply fold_add_in in Hx. destruct Hx as [Hx | Hx]; [exact (HQ v node k p x (HT v M2) (HR node M1) Ep Hx) |].
    apply set_add_in in Hx. destruct Hx as [-> | Hx]; auto.
  - intros x Hx. apply filter_In in Hx. apply HR. tauto.
Qed.
Lemma in_tree : forall es e, In (Some e) (map Some es ++ [None] ++ map Some (rev es) ++ [None]) <-> In e (es : list edge).
Proof.
  intros es e. rewrite !in_app_iff, !in_map_iff. split.
  - intros [[x [X Y]] | [[X | []] | [[x [X Y]] | [X | []]]]]; try discriminate; inversion X; subst; [exact Y | apply in_rev; exact Y].
  - intros H. left. exists e. auto.
Qed.

(** ** Lines *)
Lemma line_chain : forall A n vs, is_line A n -> forall p u w, chain A vs u p w -> w <= u + length p /\ u <= w + length p /\ forall x, In x (map snd p) -> x + x <= u + w + length p.
Proof.
  intros A n vs HL. induction p as [| e p IH]; intros u w H; simpl in *; [subst; repeat split; try lia; intros x [] |].
  destruct H as [H1 [H2 [H3 H4]]]. destruct (IH _ _ H4) as [A1 [A2 A3]]. apply HL in H2.
  split; [lia |]. split; [lia |]. intros x [<- | Hx]; [lia |]. specialize (A3 x Hx). lia.
Qed.
Lemma line_down : forall A n root, is_line A n -> forall es k seen, topdown seen es -> (forall x, In x seen <-> root <= x <= k) ->
  (forall a b, In (a, b) es -> joined A a b /\ root <= b) -> es = map (fun i => (i, S i)) (seq k (length es)).
Proof.
  intros A n root HL. induction es as [| [a b] es IH]; intros k seen T HS HJ; simpl in *; [reflexivity |].
  destruct T as [T1 [T2 T3]]. destruct (HJ a b (or_introl eq_refl)) as [J Lb]. apply HL in J. rewrite HS in T1, T2.
  assert (b = S k /\ a = k) by lia. destruct H as [-> ->]. f_equal.
  apply (IH (S k) (seen ++ [S k]) T3); [| intros; apply HJ; right; auto].
  intros x. rewrite in_app_iff, HS. simpl. lia.
Qed.
Theorem line_good : forall so A n, placed A n -> is_line A n -> (forall l x, In x (so l) -> In x l) -> no_dangling so A.
Proof.
  intros so A n HP HL Hso root qs t a b Et Hi.
  pose proof (tree_linked so A root (root :: qs) true t ltac:(intros v w Hw; destruct HP as [_ [_ [_ [X _]]]]; apply X; exact Hw) Et) as LK.
  destruct (tree_ok so A n root (root :: qs) t HP Hso Et) as [es [-> [TD [Lr [Cov [Rng [d [T [Ed [EP HT]]]]]]]]]].
  apply in_tree in Hi.
  assert (JE : forall x y, In (x, y) es -> joined A x y /\ root <= y).
  { intros x y H. split.
    - destruct (LK (x, y) (proj2 (in_tree es (x, y)) H)) as [v [w [J [X Y]]]]. simpl in X, Y. pose proof (proj1 (HL v w) J) as J'.
      destruct HP as [_ [_ [HQ _]]]. rewrite HQ in X, Y by lia. subst. exact J.
    - apply Rng. apply in_map_iff. exists (x, y). auto. }
  assert (ES := line_down A n root HL es root [root] TD ltac:(intros x; simpl; lia) JE).
  destruct (floyd_line A root (n - root) ltac:(intros w H1 H2; apply HL; lia)) as [d' [Ed' [[_ Hlen] Hval]]].
  rewrite Ed in Ed'. inversion Ed'; subst d'. clear Ed'.
  pose proof (floyd_chain A _ true [] d Ed) as HC.
  assert (Rq : forall x, In x (root :: qs) -> root <= x < n).
  { intros x Hx. destruct (Cov x Hx) as [-> | X]; [lia | apply Rng; exact X]. }
  assert (Q : forall x, In x T -> root <= x < n /\ exists u, In u (root :: qs) /\ x <= u).
  { refine (prim_all so d _ Hso _ _ _ [root] T _ _ EP).
    - intros v node k p x [Rv [tv [Tv Lv]]] [Rn [tn [Tn Ln]]] Hp Hx.
      pose proof (HC _ _ _ _ (pget_in _ _ _ Hp)) as C. destruct (line_chain A n _ HL p v node C) as [_ [_ X]]. specialize (X x Hx).
      destruct (Hval v node ltac:(lia) ltac:(lia) ltac:(lia) ltac:(lia)) as [k' [V Lk]]. unfold val in V. rewrite Hp in V. simpl in V. inversion V; subst k'.
      rewrite (Hlen _ _ _ _ Hp) in Lk. pose proof (chain_vs A _ p v node x C Hx) as Vx. apply in_seq in Vx. split; [lia |].
      destruct (Nat.le_ge_cases v node); [exists tn | exists tv]; split; auto; lia.
    - intros x [<- | []]. split; [lia |]. exists root. split; [left; reflexivity | lia].
    - intros x Hx. apply filter_In in Hx. destruct Hx as [Hx _]. apply nodup_In in Hx. split; [apply Rq; exact Hx |]. exists x. auto. }
  assert (Ib : In b (map snd es)) by (apply in_map_iff; exists (a, b); auto).
  destruct (Q b (HT b Ib)) as [Rb [u [Hu Lu]]].
  destruct (Nat.eq_dec b u) as [-> | N]; [left; exact Hu | right]. exists (S b). apply in_tree.
  assert (Iu : In u (map snd es)) by (destruct (Cov u Hu) as [-> | X]; [lia | exact X]).
  rewrite ES in Iu |- *. rewrite map_map in Iu. simpl in Iu. apply in_map_iff in Iu. destruct Iu as [i [X Y]]. apply in_seq in Y.
  apply in_map_iff. exists b. split; [reflexivity |]. apply in_seq. lia.
Qed.
Theorem line_spans : forall A n, is_line A n -> spans A n.
Proof.
  intros A n HL root Hr. destruct (floyd_line A root (n - root) ltac:(intros w H1 H2; apply HL; lia)) as [d [Ed [_ Hval]]].
  exists d. split; [exact Ed |]. intros u w Hu Hw X. destruct (Hval u w ltac:(lia) ltac:(lia) ltac:(lia) ltac:(lia)) as [k [V _]]. unfold val in V. rewrite X in V. discriminate.
Qed.

(** ** Complete architectures *)
Lemma complete_dist : forall A n root, is_complete A n -> root < n -> exists d, floyd_warshall A (seq root (n - root)) true [] = Ok d /\ inv d /\
  (forall v, root <= v < n -> le_val d v v 0) /\ (forall v w, root <= v < n -> root <= w < n -> le_val d v w 1).
Proof.
  intros A n root HK Hr. destruct (floyd_total A (seq root (n - root))) as [d [Ed [Id Bd]]].
  destruct (fw0_ok A (seq root (n - root))) as [_ [D0 J0]]. exists d. split; [exact Ed |]. split; [exact Id |].
  assert (S : forall v, root <= v < n -> In v (seq root (n - root))) by (intros; apply in_seq; lia).
  split; [intros; apply Bd, D0, S; lia |]. intros v w Hv Hw.
  destruct (Nat.eq_dec v w) as [-> | N]; [apply (le_weak _ _ _ 0); [apply Bd, D0, S; lia | lia] | apply Bd, J0; auto; apply HK; lia].
Qed.
Theorem complete_good : forall so A n, placed A n -> is_complete A n -> (forall l x, In x (so l) -> In x l) -> no_dangling so A.
Proof.
  intros so A n HP HK Hso root qs t a b Et Hi. left.
  destruct (tree_ok so A n root (root :: qs) t HP Hso Et) as [es [-> [TD [Lr [Cov [Rng [d [T [Ed [EP HT]]]]]]]]]].
  apply in_tree in Hi. destruct (complete_dist A n root HK Lr) as [d' [Ed' [[_ Hlen] [V0 V1]]]].
  rewrite Ed in Ed'. inversion Ed'; subst d'. clear Ed'. pose proof (floyd_chain A _ true [] d Ed) as HC.
  assert (Q : forall x, In x T -> root <= x < n /\ In x (root :: qs)).
  { refine (prim_all so d _ Hso _ _ _ [root] T _ _ EP).
    - intros v node k p x [Rv Qv] [Rn Qn] Hp Hx. pose proof (HC _ _ _ _ (pget_in _ _ _ Hp)) as C.
      destruct (V1 v node Rv Rn) as [k' [V Lk]]. unfold val in V. rewrite Hp in V. simpl in V. inversion V; subst k'. rewrite (Hlen _ _ _ _ Hp) in Lk.
      destruct p as [| e [| e' p]]; simpl in *; [tauto | | lia]. destruct Hx as [<- | []]. destruct C as [_ [_ [_ ->]]]. auto.
    - intros x [<- | []]. split; [lia | left; reflexivity].
    - intros x Hx. apply filter_In in Hx. destruct Hx as [Hx _]. apply nodup_In in Hx. split; [| exact Hx].
      destruct (Cov x Hx) as [-> | X]; [lia | apply Rng; exact X]. }
  apply (Q b). apply HT. apply in_map_iff. exists (a, b). auto.
Qed.
Theorem complete_spans : forall A n, is_complete A n -> spans A n.
Proof.
  intros A n HK root Hr. destruct (complete_dist A n root HK Hr) as [d [Ed [_ [_ V1]]]]. exists d. split; [exact Ed |].
  intros u w Hu Hw X. destruct (V1 u w Hu Hw) as [k [V _]]. unfold val in V. rewrite X in V. discriminate.
Qed.

(** ** No exceptions *)
Lemma prim_total : forall so d root n, (forall l x, In x (so l) <-> In x l) -> (forall u w, root <= u < n -> root <= w < n -> pget (u, w) d <> None) ->
  forall A, dchain A (seq root (n - root)) d -> forall fuel rem T, length rem <= fuel -> In root T -> (forall x, In x T -> root <= x < n) -> (forall x, In x rem -> root <= x < n) ->
  exists T', prim so fuel d rem T = Ok T'.
Proof.
  intros so d root n Hso Hall A HC. induction fuel as [| f IH]; intros rem T Lf HR HT Hrem; destruct rem as [| r0 rem]; cbn [prim]; eauto; [simpl in Lf; lia |].
  set (R := r0 :: rem) in *. destruct (candidates so d R T) as [| c cs] eqn:EC.
  - exfalso. destruct (pget (root, r0) d) as [x |] eqn:Ep; [| apply (Hall root r0); auto; apply Hrem; left; reflexivity].
    assert (X : In (r0, x) (candidates so d R T)).
    { unfold candidates. apply in_flat_map. exists r0. split; [apply Hso; left; reflexivity |]. apply in_flat_map. exists root.
      split; [apply Hso; exact HR |]. rewrite Ep. left. reflexivity. }
    rewrite EC in X. exact X.
  - pose proof (min_by_in (fun c : nat * (nat * list edge) => fst (snd c)) cs c) as M.
    set (b := min_by _ c cs) in *. clearbody b. rewrite <- EC in M. unfold candidates in M.
    apply in_flat_map in M. destruct M as [node [M1 M]]. apply in_flat_map in M. destruct M as [v [M2 M]].
    rewrite Hso in M1. rewrite Hso in M2.
    destruct (pget (v, node) d) as [[k p] |] eqn:Ep; [| destruct M]. destruct M as [<- | []]. cbn [fst snd].
    apply IH.
    + assert (X : forall l, In node l -> length (filter (fun n => negb (Nat.eqb n node)) l) < length l).
      { clear. assert (Y : forall l, length (filter (fun n => negb (Nat.eqb n node)) l) <= length l).
        { induction l as [| y l IH]; simpl; [lia |]. destruct (negb (Nat.eqb y node)); simpl; lia. }
        induction l as [| y l IH]; intros H; simpl in *; [tauto |]. destruct (Nat.eqb_spec y node) as [-> | N]; simpl; [specialize (Y l); lia |].
        destruct H as [H | H]; [congruence |]. specialize (IH H). lia. }
      specialize (X R M1). lia.
    + apply fold_add_in. right. apply set_add_in. right. exact HR.
    + intros x Hx. apply fold_add_in in Hx. destruct Hx as [Hx | Hx].
      * pose proof (chain_vs A _ p v node x (HC _ _ _ _ (pget_in _ _ _ Ep)) Hx) as Vx. apply in_seq in Vx. specialize (HT v M2). lia.
      * apply set_add_in in Hx. destruct Hx as [-> | Hx]; auto.
    + intros x Hx. apply filter_In in Hx. apply Hrem. tauto.
Qed.
Lemma bfs_total : forall A T, (forall v, NoDup (a_nb A v)) -> forall fuel vis q out, NoDup vis -> (forall x, In x vis -> In x T) -> length q + length T <= fuel + length vis ->
  exists es, bfs A fuel T vis q out = Ok es.
Proof.
  intros A T HN. induction fuel as [| f IH]; intros vis q out ND HV L; destruct q as [| x q]; cbn [bfs]; eauto.
  - exfalso. pose proof (NoDup_incl_length ND HV). simpl in L. lia.
  - set (ns := filter (fun v => memb v T && negb (memb v vis)) (a_nb A x)).
    assert (Ins : forall v, In v ns -> In v T /\ ~ In v vis).
    { intros v Hv. unfold ns in Hv. apply filter_In in Hv. rewrite andb_true_iff, memb_spec, negb_true_iff, memb_false in Hv. tauto. }
    apply IH.
    + assert (X : forall l, NoDup l -> (forall v, In v l -> ~ In v vis) -> NoDup (vis ++ l)).
      { clear - ND. induction vis as [| y vis IHv]; intros l Hl H; simpl; [exact Hl |]. inversion ND; subst. constructor.
        - rewrite in_app_iff. intros [X | X]; [tauto | apply (H y X); left; reflexivity].
        - apply IHv; auto. intros v Hv Y. apply (H v Hv). right. exact Y. }
      apply X; [apply nodup_filter; apply HN | intros v Hv; apply Ins; exact Hv].
    + intros v Hv. apply in_app_iff in Hv. destruct Hv as [Hv | Hv]; [auto | apply Ins; exact Hv].
    + rewrite !app_length. simpl in L. lia.
Qed.
Lemma tree_total : forall so A n root qs, placed A n -> (forall l x, In x (so l) <-> In x l) -> spans A n -> root < n -> NoDup qs -> (forall x, In x qs -> root <= x < n) ->
  exists t, steiner_tree so A root qs true = Ok t.
Proof.
  intros so A n root qs HP Hso HS Hr ND HQ. unfold steiner_tree.
  assert (Q2 : forall q, q < n -> q2v A q = Ok q).
  { intros q Hq. unfold q2v. destruct HP as [_ [-> _]]. rewrite (nth_error_nth' (seq 0 n) 0) by (rewrite seq_length; exact Hq). rewrite seq_nth by exact Hq. reflexivity. }
  rewrite Q2 by exact Hr. cbn [bind].
  assert (EM : forall l, (forall x, In x l -> x < n) -> mapR (q2v A) l = Ok l).
  { induction l as [| x l IH]; intros H; simpl; [reflexivity |]. rewrite Q2 by (apply H; left; reflexivity). cbn [bind]. rewrite IH by (intros; apply H; right; auto). reflexivity. }
  rewrite EM by (intros x Hx; apply HQ in Hx; lia). cbn [bind].
  rewrite (nodup_fixed_point Nat.eq_dec) by exact ND.
  assert (EF : forallb (fun m => root <=? m) qs = true) by (apply forallb_forall; intros x Hx; apply Nat.leb_le; apply HQ in Hx; lia).
  rewrite EF, Nat.eqb_refl. cbn [negb].
  assert (EL : Nat.ltb root (length (a_vs A)) = true) by (destruct HP as [-> _]; rewrite seq_length; apply Nat.ltb_lt; exact Hr).
  rewrite EL. cbn [negb]. assert (HV : skipn root (a_vs A) = seq root (n - root)) by (destruct HP as [-> _]; apply skipn_seq). rewrite HV.
  destruct (HS root Hr) as [d [Ed Hall]]. rewrite Ed. cbn [bind].
  set (rem := filter (fun m => negb (m =? root)) qs).
  destruct (prim_total so d root n Hso Hall A (floyd_chain A _ true [] d Ed) (length rem) rem [root]) as [T ET]; [lia | left; reflexivity | intros x [<- | []]; lia | |].
  { intros x Hx. unfold rem in Hx. apply filter_In in Hx. apply HQ. tauto. }
  rewrite ET. cbn [bind].
  destruct (bfs_total A T ltac:(apply HP) (S (length T)) [root] [root] []) as [es EB]; [constructor; [intros [] | constructor] | | simpl; lia |].
  { destruct (prim_ok A (seq root (n - root)) so d root ltac:(intros l x; apply Hso) (floyd_chain A _ true [] d Ed) (length rem) rem [root] T) as [[T0 _] _]; [| | exact ET |].
    - split; [left; reflexivity |]. split; [intros x [<- | []]; constructor | intros x [<- | []]; apply in_seq; lia].
    - intros x Hx. unfold rem in Hx. apply filter_In in Hx. destruct Hx as [Hx _]. apply HQ in Hx. apply in_seq. lia.
    - intros x [<- | []]. exact T0. }
  rewrite EB. cbn [bind]. eauto.
Qed.
Lemma foldM_total : forall {X B} (P : X -> Prop) (Q : B -> Prop) (f : X -> B -> res X) l,
  (forall x b, P x -> Q b -> exists x', f x b = Ok x' /\ P x') -> (forall b, In b l -> Q b) -> forall x, P x -> exists x', foldM f l x = Ok x' /\ P x'.
Proof.
  induction l as [| b l IH]; intros H HQ x Hx; simpl; [eauto |]. destruct (H x b Hx (HQ b (or_introl eq_refl))) as [y [E Hy]]. rewrite E. cbn [bind].
  apply IH; auto. intros; apply HQ; right; auto.
Qed.
Section Total.
  Variables (so : list nat -> list nat) (A : arch) (n c : nat).
  Hypothesis HP : placed A n.
  Hypothesis Hso : forall l x, In x (so l) <-> In x l.
  Hypothesis HS : spans A n.
  Lemma rd_total : forall m i j, rect n c m -> i < n -> j < c -> rd m i j = Ok (get m i j).
  Proof.
    intros m i j [L R] Hi Hj. unfold rd. rewrite (nth_error_nth' m []) by lia. cbn [of_opt bind].
    rewrite (nth_error_nth' _ false); [reflexivity |]. rewrite (R (nth i m [])); [exact Hj | apply nth_In; lia].
  Qed.
  Lemma radd_total : forall s a b, rect n c (fst s) -> a < n -> b < n -> exists s', radd s (a, b) = Ok s' /\ rect n c (fst s').
  Proof.
    intros s a b R Ha Hb. unfold radd. cbn [fst snd]. unfold rows. pose proof R as [L _]. rewrite L.
    apply Nat.ltb_lt in Ha as Ea. apply Nat.ltb_lt in Hb as Eb. rewrite Ea, Eb. cbn [andb].
    eexists. split; [reflexivity |]. simpl. apply row_add_rect; auto.
  Qed.
  Lemma reduce_total : forall col root qs s, rect n c (fst s) -> col < c -> root < n -> NoDup qs -> (forall x, In x qs -> root <= x < n) ->
    exists s', steiner_reduce so A col root qs true s = Ok s' /\ rect n c (fst s').
  Proof.
    intros col root qs s R Hc Hr ND HQ. unfold steiner_reduce.
    destruct (tree_total so A n root qs HP Hso HS Hr ND HQ) as [t Et]. rewrite Et. cbn [bind].
    destruct (tree_ok so A n root qs t HP ltac:(intros l x; apply Hso) Et) as [es [-> [TD [_ [_ [Rng _]]]]]].
    change (map Some es ++ [None] ++ map Some (rev es) ++ [None]) with (map Some es ++ None :: (map Some (rev es) ++ [None])).
    rewrite take_map. cbn [bind fst snd].
    assert (HE : forall e, In e es -> fst e < n /\ snd e < n).
    { intros [a b] H. simpl. split.
      - destruct (td_source es [root] a b TD H) as [[<- | []] | X]; [lia | apply Rng in X; lia].
      - assert (X : In b (map snd es)) by (apply in_map_iff; exists (a, b); auto). apply Rng in X. lia. }
    assert (FZ : forall l, (forall e, In e l -> fst e < n /\ snd e < n) -> exists z, find_zeros (fst s) col l = Ok z /\ forall e, In e z -> In e l).
    { induction l as [| e l IH]; intros H; simpl; [exists []; auto |].
      rewrite rd_total by (auto; apply H; left; reflexivity). cbn [bind].
      destruct IH as [z [Ez Iz]]; [intros; apply H; right; auto |]. rewrite Ez. cbn [bind].
      eexists. split; [reflexivity |]. intros x Hx. destruct (get (fst s) (fst e) col); [right; auto |]. destruct Hx as [<- | Hx]; [left; reflexivity | right; auto]. }
    destruct (FZ es HE) as [z [Ez Iz]]. rewrite Ez. cbn [bind].
    destruct (foldM_total (fun s : gst => rect n c (fst s)) (fun e : edge => fst e < n /\ snd e < n) (fill_zero col) (rev z)) with (x := s) as [s1 [E1 R1]].
    { intros x [a b] Rx [Ha Hb]. unfold fill_zero. simpl in *. rewrite rd_total by auto. cbn [bind]. destruct (get (fst x) a col); [eauto | apply radd_total; auto]. }
    { intros e He. apply in_rev in He. apply HE. auto. }
    { exact R. }
    rewrite E1. cbn [bind]. rewrite take_map. cbn [bind fst snd].
    apply (foldM_total (fun s : gst => rect n c (fst s)) (fun e : edge => fst e < n /\ snd e < n)); [| intros e He; apply in_rev in He; auto | exact R1].
    intros x [a b] Rx [Ha Hb]. apply radd_total; auto.
  Qed.
  Lemma ones_total : forall m col, rect n c m -> col < c -> forall rs, (forall x, In x rs -> x < n) -> NoDup rs ->
    exists l, ones m col rs = Ok l /\ NoDup l /\ forall x, In x l -> In x rs.
  Proof.
    intros m col R Hc. induction rs as [| x rs IH]; intros H ND; simpl; [exists []; repeat split; [constructor | auto] |].
    inversion ND; subst. rewrite rd_total by (auto; apply H; left; reflexivity). cbn [bind].
    destruct IH as [l [El [Nl Il]]]; [intros; apply H; right; auto | assumption |]. rewrite El. cbn [bind].
    eexists. split; [reflexivity |]. destruct (get m x col).
    - split; [constructor; auto |]. intros y [<- | Hy]; [left; reflexivity | right; auto].
    - split; auto.
  Qed.
  Lemma find_total : forall m cur, rect n c m -> cur < n -> forall k p, p + k <= c ->
    exists f, find_pivot m cur p k = Ok f /\ match f with None => True | Some (q, l) => q < c /\ NoDup l /\ l <> [] /\ forall x, In x l -> cur <= x < n end.
  Proof.
    intros m cur R Hcur. induction k as [| k IH]; intros p Hp; simpl; [exists None; auto |].
    assert (ER : rows m = n) by apply R. rewrite ER.
    destruct (ones_total m p R ltac:(lia) (seq cur (n - cur)) ltac:(intros x Hx; apply in_seq in Hx; lia) (seq_NoDup _ _)) as [l [El [Nl Il]]].
    rewrite El. cbn [bind]. destruct l as [| x l]; [apply IH; lia |].
    eexists. split; [reflexivity |]. split; [lia |]. split; [exact Nl |]. split; [discriminate |]. intros y Hy. apply Il in Hy. apply in_seq in Hy. lia.
  Qed.
  Lemma down_row_total : forall k (st : gst * option nat * list nat), rect n c (fst (fst (fst st))) -> (forall p, snd (fst st) = Some p -> p <= c) -> k < n ->
    exists st', down_row so A c st k = Ok st' /\ rect n c (fst (fst (fst st'))) /\ (forall p, snd (fst st') = Some p -> p <= c).
  Proof.
    intros k [[s [p |]] pcs] R Hp Hk; cbn [down_row fst snd] in *; [| eauto].
    specialize (Hp p eq_refl). destruct (find_total (fst s) k R Hk (c - p) p ltac:(lia)) as [f [Ef Hf]]. rewrite Ef. cbn [bind].
    destruct f as [[q l] |]; [| eexists; split; [reflexivity |]; split; [exact R | discriminate]].
    destruct Hf as [Hq [Nl [Ne Hl]]]. destruct l as [| x l]; [congruence |].
    match goal with |- context [steiner_reduce so A q k ?N true s] => destruct (reduce_total q k N s R Hq Hk) as [s1 [E1 R1]] end.
    - destruct (Nat.eqb_spec x k) as [-> | N]; [exact Nl |]. constructor; [| exact Nl].
      (* the row numbers are listed in increasing order, so [k] would be first *)
      intros Hi. pose proof (find_pivot_ok n c (fst s) k R _ _ _ Ef) as F. simpl in F.
      clear - Ef Hi N R. exfalso. revert Ef Hi. generalize (c - p) as j. intros j. revert p.
      induction j as [| j IH]; intros p Ef Hi; simpl in Ef; [discriminate |].
      destruct (ones (fst s) p (seq k (rows (fst s) - k))) as [l' |] eqn:El; cbn [bind] in Ef; [| discriminate].
      destruct l' as [| y l']; [eapply IH; eauto |]. inversion Ef; subst. clear Ef IH.
      destruct (rows (fst s) - k) as [| w]; simpl in El; [discriminate |].
      destruct (rd (fst s) k q) as [v |]; cbn [bind] in El; [| discriminate].
      destruct (ones (fst s) q (seq (S k) w)) as [l2 |] eqn:El2; cbn [bind] in El; [| discriminate].
      destruct v; inversion El; subst; [congruence |].
      apply (ones_in _ _ _ _ El2) in Hi. destruct Hi as [Hi _]. apply in_seq in Hi. lia.
    - intros y Hy. destruct (Nat.eqb x k); [apply Hl; exact Hy |]. destruct Hy as [<- | Hy]; [lia | apply Hl; exact Hy].
    - rewrite E1. cbn [bind]. eexists. split; [reflexivity |]. cbn [fst snd]. split; [exact R1 |]. intros p' X. inversion X; subst. lia.
  Qed.
  Theorem gauss_total : forall m, rows m = n -> cols m = c -> rect n c m -> exists s k, steiner_gauss so A false m = Ok (s, k).
  Proof.
    intros m Er Ec R. unfold steiner_gauss. rewrite Er, Ec.
    destruct (foldM_total (fun st : gst * option nat * list nat => rect n c (fst (fst (fst st))) /\ (forall p, snd (fst st) = Some p -> p <= c)) (fun k => k < n)
      (down_row so A c) (seq 0 n)) with (x := ((m, [] : list (nat * nat)), Some 0, [] : list nat)) as [[[s o] pcs] [E _]].
    { intros st k [H1 H2] Hk. destruct (down_row_total k st H1 H2 Hk) as [st' [E [G1 G2]]]. exists st'. auto. }
    { intros k Hk. apply in_seq in Hk. lia. }
    { split; [exact R |]. simpl. intros p X. inversion X. lia. }
    rewrite E. cbn [bind]. eauto.
  Qed.
End Total.
Theorem steiner_total : forall so A n m, placed A n -> (forall l x, In x (so l) <-> In x l) -> is_line A n \/ is_complete A n ->
  rows m = n -> rect (rows m) (cols m) m ->
  exists s k pcs, steiner_gauss so A false m = Ok (s, k) /\ echelon (fst s) pcs /\ length pcs = k /\ routed A m s.
Proof.
  intros so A n m HP Hso HC Er R. rewrite Er in R.
  assert (HS : spans A n) by (destruct HC; [apply line_spans | apply complete_spans]; assumption).
  assert (H1 : forall l x, In x (so l) -> In x l) by (intros l x; apply Hso).
  assert (ND : no_dangling so A) by (destruct HC; [eapply line_good | eapply complete_good]; eauto).
  destruct (gauss_total so A n (cols m) HP Hso HS m Er eq_refl R) as [s [k E]].
  destruct (steiner_echelon so A n m s k HP H1 ND ltac:(rewrite Er; exact R) E) as [pcs [G1 G2]].
  exists s, k, pcs. split; [exact E |]. split; [exact G1 |]. split; [exact G2 |].
  eapply gauss_routed; [| exact E]. intros v w Hw. destruct HP as [_ [_ [_ [X _]]]]. apply X. exact Hw.
Qed.

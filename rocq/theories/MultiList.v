(** The multigraph backend: listing, removing and retyping wires; new vertices. *)
From Coq Require Import Reals ZArith QArith Qcanon List Bool Arith Lia Permutation.
From Verif Require Import CNum Base ScalarModel ScalarProofs GraphModel GraphProofs GraphSem SumLemmas MultiModel MultiProofs MultiFacts.
Import ListNotations.
Open Scope Z_scope.

Definition tri_dec : forall a b : nat * nat * etype, {a = b} + {a <> b}.
Proof. repeat decide equality. Defined.
Lemma count_repeat : forall (a b : nat * nat * etype) n, count_occ tri_dec (repeat a n) b = if tri_dec a b then n else 0%nat.
Proof. intros a b n. induction n as [|n IH]; cbn [repeat count_occ]; destruct (tri_dec a b); auto; congruence. Qed.
Lemma count_flat : forall (V : Type) (f : nat * V -> list (nat * nat * etype)) (key : nat * nat * etype -> nat) (d : dict V) x,
  (forall k v y, In y (f (k, v)) -> key y = k) -> NoDup (dkeys d) ->
  count_occ tri_dec (flat_map f d) x = match dget (key x) d with Some v => count_occ tri_dec (f (key x, v)) x | None => 0%nat end.
Proof.
  intros V f key d x F. induction d as [|[k v] d IH]; intros N; [reflexivity|]. cbn [flat_map dget]. rewrite count_occ_app. inversion N as [|? ? N1 N2]; subst. rewrite IH by exact N2.
  destruct (Nat.eqb_spec (key x) k) as [E|E].
  - replace (dget (key x) d) with (@None V); [rewrite E; lia|]. symmetry. apply dget_none. rewrite E. exact N1.
  - replace (count_occ tri_dec (f (k, v)) x) with 0%nat; [reflexivity|]. symmetry. apply count_occ_not_In. intros I. apply F in I. congruence.
Qed.

(** edges() lists a wire u <= v as often as it is stored *)
Lemma edges_count : forall h g u v ty, mwf h g -> count_occ tri_dec (m_edges h g) (u, v, ty) = if (u <=? v)%nat then ecount (cur h g u v) ty else 0%nat.
Proof.
  intros h g u v ty W. unfold m_edges. rewrite (count_flat _ _ (fun y => fst (fst y))).
  2:{ intros k d y Y. apply in_flat_map in Y. destruct Y as [[v1 r] [_ Y]]. destruct (k <=? v1)%nat; [|destruct Y]. apply in_app_iff in Y. destruct Y as [Y|Y]; apply repeat_spec in Y; subst y; reflexivity. }
  2:{ apply (w_nd _ _ W). }
  cbn [fst]. unfold cur, mref. destruct (dget u (madj g)) as [d|] eqn:D; [|destruct (u <=? v)%nat; destruct ty; reflexivity].
  rewrite (count_flat _ _ (fun y => snd (fst y))).
  2:{ intros k r y Y. destruct (u <=? k)%nat; [|destruct Y]. apply in_app_iff in Y. destruct Y as [Y|Y]; apply repeat_spec in Y; subst y; reflexivity. }
  2:{ eapply (w_in _ _ W). exact D. }
  cbn [fst snd]. destruct (dget v d) as [r|]; [|destruct (u <=? v)%nat; destruct ty; reflexivity].
  destruct (u <=? v)%nat; [|reflexivity]. rewrite count_occ_app, !count_repeat. unfold ecount. destruct ty; repeat match goal with |- context [tri_dec ?a ?b] => destruct (tri_dec a b); try congruence; try discriminate end; lia.
Qed.

Definition mkwire (s t : nat) (ty : etype) : nat * nat * etype := if (s <=? t)%nat then (s, t, ty) else (t, s, ty).
Lemma cur_sym : forall h g u v, mwf h g -> cur h g u v = cur h g v u.
Proof. intros h g u v W. unfold cur. destruct (mref g u v) as [r|] eqn:X; [rewrite (w_sym _ _ W _ _ _ X); reflexivity|]. destruct (mref g v u) as [r|] eqn:Y; [apply (w_sym _ _ W) in Y; congruence|reflexivity]. Qed.
(** one wire more in the store is one wire more in the list *)
Lemma edges_perm : forall h g h' g' s t ty, mwf h g -> mwf h' g' -> (forall u v, cur h' g' u v = if pair_hit s t u v then plus1 ty (cur h g s t) else cur h g u v) ->
  Permutation (m_edges h' g') (mkwire s t ty :: m_edges h g).
Proof.
  intros h g h' g' s t ty W W' C. apply (Permutation_count_occ tri_dec). intros [[u v] e]. cbn [count_occ]. rewrite !edges_count by assumption. rewrite C.
  destruct (pair_hit s t u v) eqn:P.
  - assert (X : cur h g u v = cur h g s t) by (apply phit in P; destruct P as [[-> ->]|[-> ->]]; [reflexivity|apply cur_sym; exact W]). rewrite X, ecount_plus by (apply cur_nonneg; exact W).
    assert (Q : mkwire s t ty = (u, v, e) <-> (u <= v)%nat /\ e = ty).
    { apply phit in P. unfold mkwire. destruct (Nat.leb_spec s t); split.
      - intros Y. injection Y as <- <- <-. auto.
      - intros [Y ->]. destruct P as [[-> ->]|[-> ->]]; [reflexivity|]. replace t with s by lia. reflexivity.
      - intros Y. injection Y as <- <- <-. split; [lia|reflexivity].
      - intros [Y ->]. destruct P as [[-> ->]|[-> ->]]; [lia|reflexivity]. }
    destruct (tri_dec (mkwire s t ty) (u, v, e)) as [E|E].
    + apply Q in E. destruct E as [E ->]. apply Nat.leb_le in E. rewrite E. replace (etype_eqb ty ty) with true by (destruct ty; reflexivity). reflexivity.
    + destruct (Nat.leb_spec u v); [|reflexivity]. replace (etype_eqb e ty) with false; [reflexivity|]. symmetry. destruct (etype_eqb e ty) eqn:EE; [|reflexivity]. exfalso. apply E, Q. split; [assumption|]. destruct e, ty; try discriminate EE; reflexivity.
  - unfold mkwire. destruct (tri_dec (if (s <=? t)%nat then (s, t, ty) else (t, s, ty)) (u, v, e)) as [E|E]; [|reflexivity].
    exfalso. apply phit_f in P. apply P. destruct (s <=? t)%nat; injection E as <- <- _; auto.
Qed.

(** ** remove_edge *)
Definition minus1 (ty : etype) (e : medge) : medge := match ty with SIMPLE => mkE (es e - 1) (eh e) | HADAMARD => mkE (es e) (eh e - 1) end.
Lemma e_add_minus : forall ty e, nonneg e -> (match ty with SIMPLE => e_add (-1) 0 e | HADAMARD => e_add 0 (-1) e end) = if (0 <? ecount e ty)%nat then Ok (minus1 ty e) else Err ValueError.
Proof.
  intros ty e [A B]. destruct ty; unfold e_add, minus1, ecount; cbn [es eh].
  - replace (eh e + 0 <? 0) with false by (symmetry; apply Z.ltb_ge; lia). rewrite orb_false_r, Z.add_0_r. destruct (Z.ltb_spec (es e + -1) 0), (Nat.ltb_spec 0 (Z.to_nat (es e))); try lia; reflexivity.
  - replace (es e + 0 <? 0) with false by (symmetry; apply Z.ltb_ge; lia). cbn [orb]. rewrite Z.add_0_r. destruct (Z.ltb_spec (eh e + -1) 0), (Nat.ltb_spec 0 (Z.to_nat (eh e))); try lia; reflexivity.
Qed.
Lemma drop_loop_ok : forall s r h g, mwf h g -> mref g s s = Some r -> hget h r = mkE 0 0 ->
  exists g1, m_del s s g = Ok g1 /\ mwf h g1 /\ mframe g g1 /\ mnedges g1 = mnedges g /\ forall u v, cur h g1 u v = cur h g u v.
Proof.
  intros s r h g W R Z. destruct (del_spec s s r g R (w_in _ _ W)) as (g1 & E1 & F1 & M1 & N1 & R1). exists g1. split; [exact E1|].
  assert (SS : forall u v, same1 s s u v = same1 s s v u) by (intros u v; unfold same1; apply andb_comm). split.
  - constructor.
    + destruct F1 as [-> _]. apply (w_nd _ _ W).
    + exact N1.
    + destruct F1 as (-> & _ & _ & -> & _). apply (w_ty _ _ W).
    + intros u v r' Y. rewrite R1 in Y. destruct (same1 s s u v); [discriminate|]. apply (w_lt _ _ W _ _ _ Y).
    + intros u v r' Y. rewrite R1 in *. rewrite SS. destruct (same1 s s u v); [discriminate|]. apply (w_sym _ _ W _ _ _ Y).
    + intros u v u' v' r' Y Y'. rewrite R1 in Y, Y'. destruct (same1 s s u v); [discriminate|]. destruct (same1 s s u' v'); [discriminate|]. eapply (w_inj _ _ W); eassumption.
  - split; [exact F1|]. split; [exact M1|]. intros u v. unfold cur. rewrite R1. destruct (same1 s s u v) eqn:P; [|reflexivity]. unfold same1 in P. apply andb_prop in P. destruct P as [P1 P2]. apply Nat.eqb_eq in P1, P2. subst. rewrite R. symmetry. exact Z.
Qed.
Lemma remove_edge_shape : forall s t ty h g, mwf h g ->
  match mref g s t with
  | None => m_remove_edge s t ty (h, g) = Err KeyError
  | Some r =>
    if (0 <? ecount (cur h g s t) ty)%nat then
      exists h' g', m_remove_edge s t ty (h, g) = Ok (h', g') /\ mwf h' g' /\ mframe g g' /\ mnedges g' = mnedges g - 1 /\
        forall u v, cur h' g' u v = if pair_hit s t u v then minus1 ty (cur h g s t) else cur h g u v
    else m_remove_edge s t ty (h, g) = Err ValueError
  end.
Proof.
  intros s t ty h g W. unfold m_remove_edge. destruct (mref g s t) as [r|] eqn:R.
  2:{ unfold m_ref. unfold mref in R. destruct (dget s (madj g)) as [d|]; [|reflexivity]. cbn [of_opt bind]. rewrite R. reflexivity. }
  assert (RR : m_ref g s t = Ok r) by (unfold m_ref; unfold mref in R; destruct (dget s (madj g)); [|discriminate]; cbn [of_opt bind]; rewrite R; reflexivity).
  rewrite RR. cbn [bind]. pose proof (cur_nonneg h g s t W) as NN. rewrite <- (cur_ref h g s t r R), e_add_minus by exact NN.
  destruct (0 <? ecount (cur h g s t) ty)%nat eqn:P; [|reflexivity]. cbn [bind]. apply Nat.ltb_lt in P. set (e := minus1 ty (cur h g s t)).
  assert (NE : nonneg e). { destruct NN as [A B]. unfold e, ecount in *. destruct ty; split; cbn [minus1 es eh]; lia. }
  destruct (write_ok s t r e h g W R NE) as [W1 C1]. destruct (e_empty e) eqn:EM.
  - apply empty_zero in EM. assert (HR : hget (hset h r e) r = mkE 0 0). { rewrite <- EM. destruct (w_lt _ _ W _ _ _ R) as [L _]. rewrite hget_hset, Nat.eqb_refl by exact L. reflexivity. }
    destruct (Nat.eqb_spec s t) as [<-|ST].
    + destruct (drop_loop_ok s r _ g W1 R HR) as (g1 & E1 & W2 & F2 & M2 & C2). rewrite E1. cbn [bind]. eexists. eexists. split; [reflexivity|]. split; [apply mwf_nedges; exact W2|]. split; [exact F2|]. split; [cbn [mnedges m_with_nedges]; congruence|].
      intros u v. change (cur (hset h r e) (m_with_nedges (mnedges g1 - 1) g1) u v) with (cur (hset h r e) g1 u v). rewrite C2. apply C1.
    + destruct (drop_ok s t r _ g W1 R HR ST) as (g1 & g2 & E1 & E2 & W2 & F2 & M2 & _ & C2). rewrite E1. cbn [bind]. rewrite E2. cbn [bind]. eexists. eexists. split; [reflexivity|]. split; [apply mwf_nedges; exact W2|]. split; [exact F2|]. split; [cbn [mnedges m_with_nedges]; congruence|].
      intros u v. change (cur (hset h r e) (m_with_nedges (mnedges g2 - 1) g2) u v) with (cur (hset h r e) g2 u v). rewrite C2. apply C1.
  - cbn [bind]. eexists. eexists. split; [reflexivity|]. split; [apply mwf_nedges; exact W1|]. split; [repeat split|]. split; [reflexivity|]. exact C1.
Qed.
Lemma plus_minus : forall ty e, plus1 ty (minus1 ty e) = e.
Proof. intros [] [a b]; unfold plus1, minus1; cbn [es eh]; f_equal; lia. Qed.

(** ** add_edge without simplification, remove_edge and the list of wires *)
Lemma add_edge_list : forall s t ty h g, mwf h g -> In s (mverts g) -> In t (mverts g) -> mauto g = false ->
  exists h' g', m_add_edge s t ty (h, g) = Ok (h', g') /\ mwf h' g' /\ mauto g' = false /\ mverts g' = mverts g /\ mnedges g' = mnedges g + 1 /\ Permutation (m_edges h' g') (mkwire s t ty :: m_edges h g).
Proof.
  intros s t ty h g W S T A. assert (ST : s <> t \/ mauto g && spider g s && spider g t = false) by (right; rewrite A; reflexivity).
  destruct (add_edge_shape s t ty h g W S T ST) as (h' & g' & E & W' & V' & A' & _ & _ & _ & _ & M' & _ & C'). exists h', g'. split; [exact E|]. split; [exact W'|]. split; [congruence|]. split; [exact V'|]. split; [exact M'|].
  apply edges_perm; [exact W|exact W'|]. unfold after in C'. rewrite A in C'. exact C'.
Qed.
Lemma remove_edge_list : forall s t ty h g, mwf h g -> In (mkwire s t ty) (m_edges h g) ->
  exists h' g', m_remove_edge s t ty (h, g) = Ok (h', g') /\ mwf h' g' /\ mframe g g' /\ mnedges g' = mnedges g - 1 /\ Permutation (m_edges h g) (mkwire s t ty :: m_edges h' g').
Proof.
  intros s t ty h g W I. assert (P : (0 < ecount (cur h g s t) ty)%nat).
  { apply (count_occ_In tri_dec) in I. unfold mkwire in I. destruct (Nat.leb_spec s t); rewrite edges_count in I by exact W; [replace (s <=? t)%nat with true in I by (symmetry; apply Nat.leb_le; lia); lia|].
    replace (t <=? s)%nat with true in I by (symmetry; apply Nat.leb_le; lia). rewrite cur_sym by exact W. lia. }
  pose proof (remove_edge_shape s t ty h g W) as H. destruct (mref g s t) as [r|] eqn:R; [|unfold cur in P; rewrite R in P; destruct ty; cbn in P; lia].
  apply Nat.ltb_lt in P. rewrite P in H. destruct H as (h' & g' & E & W' & F' & M' & C'). exists h', g'. split; [exact E|]. split; [exact W'|]. split; [exact F'|]. split; [exact M'|].
  apply edges_perm; [exact W'|exact W|]. intros u v. rewrite !C', pair_hit_st, plus_minus. destruct (pair_hit s t u v) eqn:Q; [|reflexivity]. apply phit in Q. destruct Q as [[-> ->]|[-> ->]]; [reflexivity|apply cur_sym; exact W].
Qed.
Lemma remove_edge_absent : forall s t ty h g, mwf h g -> ~ In (mkwire s t ty) (m_edges h g) -> m_remove_edge s t ty (h, g) = Err (match mref g s t with None => KeyError | Some _ => ValueError end).
Proof.
  intros s t ty h g W I. pose proof (remove_edge_shape s t ty h g W) as H. destruct (mref g s t) as [r|] eqn:R; [|exact H]. destruct (0 <? ecount (cur h g s t) ty)%nat eqn:P; [|exact H].
  exfalso. apply I. apply (count_occ_In tri_dec). apply Nat.ltb_lt in P. unfold mkwire. destruct (Nat.leb_spec s t); rewrite edges_count by exact W; [replace (s <=? t)%nat with true by (symmetry; apply Nat.leb_le; lia); lia|].
  replace (t <=? s)%nat with true by (symmetry; apply Nat.leb_le; lia). rewrite cur_sym by exact W. lia.
Qed.

(** ** set_edge_type *)
Lemma set_edge_type_list : forall s t ty ty' h g, mwf h g -> In (mkwire s t ty) (m_edges h g) ->
  exists h', m_set_edge_type s t ty ty' (h, g) = Ok (h', g) /\ mwf h' g /\ exists rest, Permutation (m_edges h g) (mkwire s t ty :: rest) /\ Permutation (m_edges h' g) (mkwire s t ty' :: rest).
Proof.
  intros s t ty ty' h g W I. unfold m_set_edge_type. destruct (etype_eqb ty ty') eqn:EQ.
  { assert (ty = ty') by (destruct ty, ty'; try discriminate EQ; reflexivity). subst ty'. exists h. split; [reflexivity|]. split; [exact W|]. apply in_split in I. destruct I as (l1 & l2 & X). exists (l1 ++ l2). rewrite X. split; symmetry; apply Permutation_middle. }
  assert (P : (0 < ecount (cur h g s t) ty)%nat).
  { apply (count_occ_In tri_dec) in I. unfold mkwire in I. destruct (Nat.leb_spec s t); rewrite edges_count in I by exact W; [replace (s <=? t)%nat with true in I by (symmetry; apply Nat.leb_le; lia); lia|].
    replace (t <=? s)%nat with true in I by (symmetry; apply Nat.leb_le; lia). rewrite cur_sym by exact W. lia. }
  destruct (remove_edge_list s t ty h g W I) as (h1 & g1 & E1 & W1 & F1 & _ & P1).
  destruct (mref g s t) as [r|] eqn:R; [|unfold cur in P; rewrite R in P; destruct ty; cbn in P; lia].
  assert (RR : m_ref g s t = Ok r) by (unfold m_ref; unfold mref in R; destruct (dget s (madj g)); [|discriminate]; cbn [of_opt bind]; rewrite R; reflexivity).
  rewrite RR. cbn [bind]. pose proof (cur_nonneg h g s t W) as NN. rewrite <- (cur_ref h g s t r R), e_add_minus by exact NN. pose proof P as P'. apply Nat.ltb_lt in P'. rewrite P'. cbn [bind].
  set (e := minus1 ty (cur h g s t)). assert (NE : nonneg e). { destruct NN as [A B]. unfold e, ecount in *. destruct ty; split; cbn [minus1 es eh]; lia. }
  rewrite e_add_plus by exact NE. cbn [bind]. destruct (write_ok s t r (plus1 ty' e) h g W R (plus1_nonneg ty' e NE)) as [W2 C2].
  eexists. split; [reflexivity|]. split; [exact W2|]. exists (m_edges h1 g1). split; [exact P1|].
  pose proof (remove_edge_shape s t ty h g W) as H. rewrite R, P' in H. destruct H as (h1' & g1' & E1' & W1' & _ & _ & C1). rewrite E1 in E1'. injection E1' as <- <-.
  apply edges_perm; [exact W1|exact W2|]. intros u v. rewrite C2, !C1, pair_hit_st. destruct (pair_hit s t u v); reflexivity.
Qed.

(** ** new graphs and vertices *)
Lemma mwf_empty : forall h, mwf h mempty.
Proof. intros h. constructor; try (intros; discriminate); [constructor|intros u []]. Qed.
Definition mfresh (g : mgraph) : Prop := forall v, In v (mverts g) -> (v < mvindex g)%nat.
Lemma mref_key : forall h g u v r, mwf h g -> mref g u v = Some r -> In u (mverts g) /\ In v (mverts g).
Proof.
  assert (K : forall g u v r, mref g u v = Some r -> In u (mverts g)). { intros g u v r H. unfold mref in H. destruct (dget u (madj g)) eqn:E; [apply dget_keys; eauto|discriminate]. }
  intros h g u v r W H. split; [eapply K; exact H|]. apply (w_sym _ _ W) in H. eapply K; exact H.
Qed.
Lemma m_add_one_ok : forall h g v, mwf h g -> ~ In v (mverts g) ->
  mwf h (m_add_one v g) /\ mverts (m_add_one v g) = mverts g ++ [v] /\ (forall u w, cur h (m_add_one v g) u w = cur h g u w) /\ mauto (m_add_one v g) = mauto g /\ mvindex (m_add_one v g) = mvindex g.
Proof.
  intros h g v W N. assert (R : forall u w, mref (m_add_one v g) u w = mref g u w).
  { intros u w. unfold mref, m_add_one. cbn [madj m_with_phase m_with_ty m_with_adj]. rewrite dget_dset. destruct (Nat.eqb_spec u v) as [->|]; [|reflexivity]. replace (dget v (madj g)) with (@None (dict nat)); [reflexivity|]. symmetry. apply dget_none. exact N. }
  assert (V : mverts (m_add_one v g) = mverts g ++ [v]) by (unfold mverts, m_add_one; cbn [madj m_with_phase m_with_ty m_with_adj]; apply dkeys_dset_notin; exact N).
  split.
  - constructor.
    + rewrite V. apply NoDup_snoc; [apply (w_nd _ _ W)|exact N].
    + intros u d H. unfold m_add_one in H. cbn [madj m_with_phase m_with_ty m_with_adj] in H. rewrite dget_dset in H. destruct (Nat.eqb_spec u v); [injection H as <-; constructor|eapply (w_in _ _ W); exact H].
    + intros u H. unfold m_add_one. cbn [mty m_with_phase m_with_ty m_with_adj]. rewrite dget_dset. destruct (Nat.eqb_spec u v); [eauto|]. apply (w_ty _ _ W). rewrite V in H. apply in_app_iff in H. destruct H as [H|[H|[]]]; [exact H|congruence].
    + intros u w r H. rewrite R in H. apply (w_lt _ _ W _ _ _ H).
    + intros u w r H. rewrite R in *. apply (w_sym _ _ W _ _ _ H).
    + intros u w u' w' r H H'. rewrite R in *. eapply (w_inj _ _ W); eassumption.
  - split; [exact V|]. split; [|split; reflexivity]. intros u w. unfold cur. rewrite R. reflexivity.
Qed.
Lemma m_add_vertices_ok : forall n h g, mwf h g -> mfresh g ->
  let (g', ids) := m_add_vertices n g in mwf h g' /\ mfresh g' /\ ids = seq (mvindex g) n /\ mverts g' = mverts g ++ ids /\ (forall u w, cur h g' u w = cur h g u w) /\ mauto g' = mauto g.
Proof.
  intros n h g W F. unfold m_add_vertices.
  assert (K : forall ids g0, mwf h g0 -> NoDup ids -> (forall v, In v ids -> ~ In v (mverts g0)) -> let g1 := fold_left (fun g v => m_add_one v g) ids g0 in
    mwf h g1 /\ mverts g1 = mverts g0 ++ ids /\ (forall u w, cur h g1 u w = cur h g0 u w) /\ mauto g1 = mauto g0 /\ mvindex g1 = mvindex g0).
  { induction ids as [|v ids IH]; intros g0 W0 N D; cbn [fold_left]; cbv zeta; [rewrite app_nil_r; auto|]. inversion N; subst.
    destruct (m_add_one_ok h g0 v W0 (D v (or_introl eq_refl))) as (W1 & V1 & C1 & A1 & X1). destruct (IH (m_add_one v g0) W1) as (W2 & V2 & C2 & A2 & X2); [assumption| |].
    - intros u U. rewrite V1. intros X. apply in_app_iff in X. destruct X as [X|[X|[]]]; [apply (D u (or_intror U) X)|congruence].
    - split; [exact W2|]. split; [rewrite V2, V1, <- app_assoc; reflexivity|]. split; [intros; rewrite C2, C1; reflexivity|]. split; congruence. }
  destruct (K (seq (mvindex g) n) g W (seq_NoDup _ _)) as (W2 & V2 & C2 & A2 & X2).
  { intros v V X. apply F in X. apply in_seq in V. lia. }
  split; [constructor; apply W2|]. split; [|split; [reflexivity|split; [exact V2|split; [exact C2|exact A2]]]].
  intros v V. change (mverts (m_with_vindex (mvindex g + n) (fold_left (fun g v => m_add_one v g) (seq (mvindex g) n) g))) with (mverts (fold_left (fun g v => m_add_one v g) (seq (mvindex g) n) g)) in V. rewrite V2 in V. cbn [mvindex m_with_vindex].
  apply in_app_iff in V. destruct V as [V|V]; [apply F in V; lia|apply in_seq in V; lia].
Qed.
Lemma m_set_type_ok : forall h g v t, mwf h g -> mwf h (m_set_type v t g).
Proof. intros h g v t W. constructor; try apply W. intros u U. unfold m_set_type. cbn [mty m_with_ty]. rewrite dget_dset. destruct (Nat.eqb u v); [eauto|apply (w_ty _ _ W u U)]. Qed.
Lemma m_set_phase_ok : forall h g v p, mwf h g -> mwf h (m_set_phase v p g).
Proof. intros h g v p W. constructor; apply W. Qed.

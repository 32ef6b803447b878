(** basic_optimization on circuits whose phases are multiples of pi/4: the phases stay
    multiples of pi/4, and the number of T gates does not grow *)
From Coq Require Import Reals ZArith QArith Qcanon List Bool Arith Lia Permutation.
From Verif Require Import LinModel PermModel CNum Base ScalarModel ScalarProofs GateModel OptModel.
From Verif Require ToddSem.
Import ListNotations.
Open Scope nat_scope.
Notation tcnt := ToddSem.tcnt.

Definition q4 (g : gate) : Prop := match g with GZ _ _ p => exists z, p = frac z 4 | _ => True end.
Definition cg (g : gate) : nat := tcnt [g].
Definition cl (l : list igate) : nat := tcnt (map snd l).
Definition cnt (n : nat) (G : nat -> list igate) : nat := fold_right (fun q k => cl (G q) + k) 0 (seq 0 n).
Lemma cl_app : forall a b, cl (a ++ b) = cl a + cl b. Proof. intros. unfold cl. rewrite map_app. apply ToddSem.tcnt_app. Qed.
Lemma cl_cons : forall g l, cl (g :: l) = cg (snd g) + cl l. Proof. intros. unfold cl. cbn [map]. change (snd g :: map snd l) with ([snd g] ++ map snd l). apply ToddSem.tcnt_app. Qed.
Lemma cl_nil : cl [] = 0. Proof. auto. Qed.
Lemma cnt_fset_seq : forall f k v s m, fold_right (fun q a => cl (fset f k v q) + a) 0 (seq s m) + (if (s <=? k) && (k <? s + m) then cl (f k) else 0) =
  fold_right (fun q a => cl (f q) + a) 0 (seq s m) + (if (s <=? k) && (k <? s + m) then cl v else 0).
Proof.
  intros f k v s m. revert s. induction m as [|m IH]; intros s; cbn [seq fold_right].
  - destruct (Nat.leb_spec s k), (Nat.ltb_spec k (s + 0)); cbn; lia.
  - specialize (IH (S s)). unfold fset at 1. destruct (Nat.eqb_spec s k) as [E|N]; [subst k|]; repeat match goal with |- context [?a <=? ?b] => destruct (Nat.leb_spec a b) | |- context [?a <? ?b] => destruct (Nat.ltb_spec a b) | H : context [?a <=? ?b] |- _ => destruct (Nat.leb_spec a b) | H : context [?a <? ?b] |- _ => destruct (Nat.ltb_spec a b) end; cbn [andb] in *; lia.
Qed.
Lemma cnt_fset : forall n f k v, k < n -> cnt n (fset f k v) + cl (f k) = cnt n f + cl v.
Proof. intros n f k v H. assert (K := cnt_fset_seq f k v 0 n). cbn [Nat.leb andb plus] in K. rewrite (proj2 (Nat.ltb_lt k n) H) in K. exact K. Qed.
Lemma cnt_off : forall n f k v, n <= k -> cnt n (fset f k v) = cnt n f.
Proof. intros n f k v H. assert (K := cnt_fset_seq f k v 0 n). cbn [Nat.leb andb plus] in K. rewrite (proj2 (Nat.ltb_ge k n) H) in K. unfold cnt. lia. Qed.
Lemma cnt_fset_le : forall n f k v, cl v <= cl (f k) -> cnt n (fset f k v) <= cnt n f.
Proof. intros n f k v H. destruct (le_lt_dec n k) as [L|L]; [rewrite cnt_off; auto|]. assert (K := cnt_fset n f k v L). lia. Qed.
Lemma cnt_fset_add : forall n f k v m, cl v <= cl (f k) + m -> cnt n (fset f k v) <= cnt n f + m.
Proof. intros n f k v m H. destruct (le_lt_dec n k) as [L|L]; [rewrite cnt_off; auto; lia|]. assert (K := cnt_fset n f k v L). lia. Qed.

(** ** phases *)
Lemma cg_frac : forall k t z, cg (GZ k t (frac z 4)) = if Z.odd z then 1 else 0.
Proof. intros. unfold cg, tcnt. cbn [fold_right]. rewrite ToddSem.den_frac. auto. Qed.
Lemma cg_kind : forall k t k' t' p, cg (GZ k t p) = cg (GZ k' t' p). Proof. auto. Qed.
Lemma frac_inj4 : forall a b, frac a 4 = frac b 4 -> a = b.
Proof. intros a b E. rewrite <- (ToddSem.qtrunc_frac a), <- (ToddSem.qtrunc_frac b), E. auto. Qed.
Lemma qmod2_frac : forall z, exists n, qmod2 (frac z 4) = frac (z + 8 * n) 4.
Proof.
  intros z. destruct (qmod2_diff (frac z 4)) as [n E]. exists (- n)%Z. rewrite <- frac_add. replace (frac (8 * - n) 4) with (- Qcz (2 * n))%Qc.
  - rewrite E at 2. ring.
  - apply Qc_is_canon. unfold frac. cbn [this Q2Qc]. rewrite Qred_correct. change (this (- Qcz (2 * n))%Qc) with (Qred (- this (Qcz (2 * n)))). rewrite Qred_correct, this_Qcz. unfold Qeq, inject_Z, Qopp. cbn [Qnum Qden]. lia.
Qed.
Lemma frac_opp4 : forall z, (- frac z 4)%Qc = frac (- z) 4.
Proof. intros z. assert (K : (frac z 4 + frac (- z) 4 = 0)%Qc) by (rewrite frac_add, Z.add_opp_diag_r; apply Qc_is_canon; reflexivity). rewrite <- (Qcplus_0_r (- frac z 4)), <- K. ring. Qed.
Lemma frac_1 : 1%Qc = frac 4 4. Proof. apply Qc_is_canon. reflexivity. Qed.
Lemma odd8 : forall z n, Z.odd (z + 8 * n) = Z.odd z.
Proof. intros. rewrite Z.odd_add, Z.odd_mul. cbn. apply xorb_false_r. Qed.
Lemma neg4 : forall z, exists w, qmod2 (- frac z 4)%Qc = frac w 4 /\ Z.odd w = Z.odd z.
Proof. intros z. rewrite frac_opp4. destruct (qmod2_frac (- z)) as [n ->]. eexists. split; [reflexivity|]. rewrite odd8. apply Z.odd_opp. Qed.
Lemma add4 : forall z y, exists w, qmod2 (frac z 4 + frac y 4)%Qc = frac w 4 /\ Z.odd w = xorb (Z.odd z) (Z.odd y).
Proof. intros z y. rewrite frac_add. destruct (qmod2_frac (z + y)) as [n ->]. eexists. split; [reflexivity|]. rewrite odd8. apply Z.odd_add. Qed.
Lemma sg4 : forall t b, q4 (Sg t b) /\ cg (Sg t b) = 0.
Proof. intros t b. split; [exists (if b then -2 else 2)%Z; destruct b; apply Qc_is_canon; reflexivity|]. destruct b; reflexivity. Qed.
Lemma qden_even : forall z, GateModel.qden (frac z 4) = 2%positive -> Z.odd z = false.
Proof. intros z E. rewrite <- ToddSem.den_frac. change (Qden (this (frac z 4))) with (GateModel.qden (frac z 4)). rewrite E. auto. Qed.

(** ** states *)
Definition ok4 (n : nat) (st : ostate) (m : nat) : Prop :=
  (forall q g, In g (o_gates st q) -> q4 (snd g)) /\ (forall q g, In g (o_avail st q) -> q4 (snd g)) /\ cnt n (o_gates st) <= m.
Lemma fset_in : forall A (f : nat -> list A) k v q x, In x (fset f k v q) -> In x v \/ In x (f q).
Proof. intros A f k v q x H. unfold fset in H. destruct (Nat.eqb q k); auto. Qed.
Lemma eqb_cg : forall a b, ig_eqb a b = true -> cg (snd a) = cg (snd b).
Proof.
  intros [i a] [j b] H. apply andb_true_iff in H. destruct H as [_ H]. cbn [snd] in *. unfold gate_eqb in H. destruct a, b; try (destruct (gate_dec _ _) as [E|]; [rewrite E; auto|discriminate]); auto.
Qed.
Lemma ig_remove_in : forall g l l', ig_remove g l = Ok l' -> (forall x, In x l' -> In x l) /\ cl l = cg (snd g) + cl l'.
Proof.
  intros g. induction l as [|b l IH]; intros l' E; [discriminate|]. cbn [ig_remove] in E. destruct (ig_eqb b g) eqn:B.
  - inversion E; subst. split; [intros; right; auto|]. rewrite cl_cons, (eqb_cg b g B). auto.
  - apply bind_ok in E. destruct E as [r [E1 E2]]. inversion E2; subst. destruct (IH r E1) as [A C]. split; [intros x [->|Hx]; [left; auto|right; auto]|]. rewrite !cl_cons, C. lia.
Qed.
Lemma k_le : forall n st m m', ok4 n st m -> m <= m' -> ok4 n st m'. Proof. intros n st m m' [A [B C]] H. split; auto. split; auto. lia. Qed.
Lemma k_gates : forall n st m q l d, ok4 n st m -> (forall g, In g l -> q4 (snd g)) -> cl l <= cl (o_gates st q) + d -> ok4 n (set_gates st (fset (o_gates st) q l)) (m + d).
Proof.
  intros n st m q l d [A [B C]] H L. split; [|split; [exact B|]]; cbn [o_gates set_gates]; [intros q' g Hg; apply fset_in in Hg; destruct Hg; eauto|]. assert (K := cnt_fset_add n (o_gates st) q l d L). lia.
Qed.
Lemma k_gates0 : forall n st m q l, ok4 n st m -> (forall g, In g l -> q4 (snd g)) -> cl l <= cl (o_gates st q) -> ok4 n (set_gates st (fset (o_gates st) q l)) m.
Proof. intros. rewrite <- (Nat.add_0_r m). apply k_gates; auto. lia. Qed.
Lemma k_gates_app : forall n st m q g, ok4 n st m -> q4 (snd g) -> ok4 n (gates_app st q g) (m + cg (snd g)).
Proof.
  intros n st m q g H G. unfold gates_app. apply k_gates; auto; [|rewrite cl_app, cl_cons, cl_nil; lia]. intros x Hx. apply in_app_or in Hx. destruct Hx as [Hx|[<-|[]]]; auto. apply (proj1 H q x Hx).
Qed.
Lemma k_gates_app0 : forall n st m q g, ok4 n st m -> q4 (snd g) -> cg (snd g) = 0 -> ok4 n (gates_app st q g) m.
Proof. intros n st m q g H G E. rewrite <- (Nat.add_0_r m), <- E. apply k_gates_app; auto. Qed.
Lemma k_avail : forall n st m f, ok4 n st m -> (forall q g, In g (f q) -> q4 (snd g)) -> ok4 n (set_avail st f) m.
Proof. intros n st m f [A [B C]] H. split; auto. Qed.
Lemma k_avail_app : forall n st m q g, ok4 n st m -> q4 (snd g) -> ok4 n (avail_app st q g) m.
Proof.
  intros n st m q g H G. apply k_avail; auto. intros q' x Hx. apply fset_in in Hx. destruct Hx as [Hx|Hx]; [|apply (proj1 (proj2 H) q' x Hx)]. apply in_app_or in Hx. destruct Hx as [Hx|[<-|[]]]; auto. apply (proj1 (proj2 H) q x Hx).
Qed.
Lemma k_same : forall n st st' m, ok4 n st m -> o_gates st' = o_gates st -> o_avail st' = o_avail st -> ok4 n st' m.
Proof. intros n st st' m [A [B C]] E1 E2. unfold ok4. rewrite E1, E2. auto. Qed.
Lemma k_reset : forall n st m q b, ok4 n st m -> ok4 n (reset st q b) m.
Proof. intros n st m q b H. unfold reset. apply (k_same n (set_avail st (fset (o_avail st) q []))); auto. apply k_avail; auto. intros q' g Hg. apply fset_in in Hg. destruct Hg as [[]|Hg]. apply (proj1 (proj2 H) q' g Hg). Qed.
Lemma k_tick : forall n st m, ok4 n st m -> ok4 n (tick st) m. Proof. intros n st m H. apply (k_same n st); auto. Qed.
Lemma k_gates_rem : forall n st m q g st', ok4 n st m -> gates_rem st q g = Ok st' -> ok4 n st' m.
Proof.
  intros n st m q g st' H E. apply bind_ok in E. destruct E as [l [E1 E2]]. inversion E2; subst. destruct (ig_remove_in _ _ _ E1) as [A C]. apply k_gates0; auto; [|lia]. intros x Hx. apply (proj1 H q x). auto.
Qed.
Lemma k_gates_rem2 : forall n st m q g st', ok4 n st m -> q < n -> gates_rem st q g = Ok st' -> exists m', m' + cg (snd g) = m /\ ok4 n st' m'.
Proof.
  intros n st m q g st' H L E. assert (H0 := k_gates_rem _ _ _ _ _ _ H E). apply bind_ok in E. destruct E as [l [E1 E2]]. inversion E2; subst. destruct (ig_remove_in _ _ _ E1) as [A C].
  assert (K := cnt_fset n (o_gates st) q l L). destruct H as [_ [_ H]]. destruct H0 as [H1 [H2 _]]. exists (m - cg (snd g)). split; [lia|]. split; auto. split; auto. cbn [o_gates set_gates]. lia.
Qed.
Lemma k_avail_rem : forall n st m q g st', ok4 n st m -> avail_rem st q g = Ok st' -> ok4 n st' m.
Proof.
  intros n st m q g st' H E. apply bind_ok in E. destruct E as [l [E1 E2]]. inversion E2; subst. destruct (ig_remove_in _ _ _ E1) as [A C]. apply k_avail; auto. intros q' x Hx. apply fset_in in Hx. destruct Hx as [Hx|Hx]; [apply (proj1 (proj2 H) q); auto|apply (proj1 (proj2 H) q' x Hx)].
Qed.
Lemma k_had : forall n st m t st', ok4 n st m -> add_hadamard t st = Ok st' -> ok4 n st' m.
Proof.
  intros n st m t st' H E. unfold add_hadamard in E. apply bind_ok in E. destruct E as [hs [_ E2]]. inversion E2; subst. apply k_reset. apply (k_same n (gates_app (tick st) t (o_count st, GHAD t))); auto. apply k_gates_app0; [apply k_tick; auto|exact I|reflexivity].
Qed.
Lemma k_add_gate : forall n st m t g, ok4 n st m -> q4 g -> ok4 n (add_gate t g st) (m + cg g).
Proof. intros n st m t g H G. unfold add_gate. apply k_avail_app; auto. apply (k_gates_app n (tick st) m t (o_count st, g)); [apply k_tick; auto|auto]. Qed.
Lemma insert_end_in : forall A k (x : A) l y, In y (insert_end k x l) -> y = x \/ In y l.
Proof.
  intros A k x l y H. unfold insert_end in H. rewrite <- (firstn_skipn (length l - k) l). apply in_app_or in H. rewrite in_app_iff. destruct H as [H|[H|H]]; auto.
Qed.
Lemma insert_end_cl : forall k x l, cl (insert_end k x l) = cg (snd x) + cl l.
Proof. intros. unfold insert_end. rewrite cl_app, cl_cons. assert (E : cl l = cl (firstn (length l - k) l) + cl (skipn (length l - k) l)) by (rewrite <- cl_app, firstn_skipn; auto). lia. Qed.
Lemma k_insert : forall n st m t k x, ok4 n st m -> q4 (snd x) -> cg (snd x) = 0 -> ok4 n (set_gates st (fset (o_gates st) t (insert_end k x (o_gates st t)))) m.
Proof.
  intros n st m t k x H G E. apply k_gates0; auto; [|rewrite insert_end_cl; lia]. intros g Hg. apply insert_end_in in Hg. destruct Hg as [->|Hg]; auto. apply (proj1 H t g Hg).
Qed.
Lemma is_cnot_c : forall c t g, is_cnot c t g = true -> snd g = GCNOT c t.
Proof. intros c t g H. unfold is_cnot in H. destruct (snd g); try discriminate. apply andb_true_iff in H. rewrite !Nat.eqb_eq in H. destruct H. subst. auto. Qed.
Lemma k_absorb : forall n st m c t g st', ok4 n st m -> is_cnot c t g = true -> cz_absorb c t g st = Ok st' -> ok4 n st' m.
Proof.
  intros n st m c t g st' H IC E. apply is_cnot_c in IC. assert (G4 : q4 (snd g)) by (rewrite IC; exact I). assert (GC : cg (snd g) = 0) by (rewrite IC; auto). unfold cz_absorb in E.
  set (s0 := if o_two st t then _ else st) in E. assert (H0 : ok4 n s0 m) by (unfold s0; destruct (o_two st t); auto; apply k_avail; auto; intros q x Hx; apply fset_in in Hx; destruct Hx as [[]|Hx]; apply (proj1 (proj2 H) q x Hx)).
  apply bind_ok in E. destruct E as [s1 [E1 E]]. assert (H1 := k_gates_rem _ _ _ _ _ _ H0 E1). apply bind_ok in E. destruct E as [s2 [E2 E]]. assert (H2 := k_gates_rem _ _ _ _ _ _ H1 E2). apply bind_ok in E. destruct E as [s3 [E3 E]]. assert (H3 := k_avail_rem _ _ _ _ _ _ H2 E3).
  inversion E; subst st'. clear E. set (s4 := if Nat.eqb _ 0 then _ else _).
  assert (H4 : ok4 n s4 m).
  { unfold s4. destruct (Nat.eqb _ 0).
    - apply k_gates_app0; auto. apply k_gates_app0; [apply k_tick; auto|apply sg4|apply sg4].
    - apply (k_insert n (set_gates (tick s3) (fset (o_gates s3) t (insert_end (length (o_avail s3 t)) (o_count s3, Sg t true) (o_gates s3 t)))) m t); auto.
      apply (k_insert n (tick s3) m t (length (o_avail s3 t)) (o_count s3, Sg t true)); [apply k_tick; auto|apply sg4|apply sg4]. }
  clearbody s4. apply k_gates_app0; [|apply sg4|apply sg4]. apply k_gates_app0; auto. apply k_avail_app; [|apply sg4]. apply k_avail_app; auto. apply k_tick. apply k_avail_app; [|apply sg4]. apply k_gates_app0; [|apply sg4|apply sg4]. apply k_tick. auto.
Qed.
Lemma k_add2 : forall n st m c t g, ok4 n st m -> (g = GCZ c t \/ g = GCNOT c t) -> ok4 n (avail_app (avail_app (gates_app (gates_app (tick st) c (o_count st, g)) t (o_count st, g)) c (o_count st, g)) t (o_count st, g)) m.
Proof.
  intros n st m c t g H G. assert (G4 : q4 g) by (destruct G; subst; exact I). assert (GC : cg g = 0) by (destruct G; subst; auto).
  repeat first [apply k_avail_app; [|exact G4] | apply k_gates_app0; [|exact G4|exact GC]]. apply k_tick; auto.
Qed.
Lemma k_rem4 : forall n st m c t g st', ok4 n st m -> (let* st := avail_rem st c g in let* st := gates_rem st c g in let* st := avail_rem st t g in gates_rem st t g) = Ok st' -> ok4 n st' m.
Proof.
  intros n st m c t g st' H E. apply bind_ok in E. destruct E as [s1 [E1 E]]. assert (H1 := k_avail_rem _ _ _ _ _ _ H E1). apply bind_ok in E. destruct E as [s2 [E2 E]]. assert (H2 := k_gates_rem _ _ _ _ _ _ H1 E2).
  apply bind_ok in E. destruct E as [s3 [E3 E]]. assert (H3 := k_avail_rem _ _ _ _ _ _ H2 E3). apply (k_gates_rem _ _ _ _ _ _ H3 E).
Qed.
Lemma k_cz : forall n st m mz c t st', ok4 n st m -> add_cz mz c t st = Ok st' -> ok4 n st' m.
Proof.
  intros n st m mz c t st' H E. unfold add_cz in E. destruct (if mz then cz_search st c t else None) as [[[c' t'] g]|] eqn:ES.
  - destruct mz; [|discriminate]. unfold cz_search in ES. apply (k_absorb n st m c' t' g); auto.
    destruct (find (cz_usable st c t) (o_avail st c)) as [x|] eqn:F1.
    + inversion ES; subst. apply find_some in F1. destruct F1 as [_ F1]. apply andb_true_iff in F1. tauto.
    + destruct (find (cz_usable st t c) (o_avail st t)) as [x|] eqn:F2; [|discriminate]. inversion ES; subst. apply find_some in F2. destruct F2 as [_ F2]. apply andb_true_iff in F2. tauto.
  - set (s0 := if o_two st c then reset st c false else st) in E. assert (H0 : ok4 n s0 m) by (unfold s0; destruct (o_two st c); auto; apply k_reset; auto). clearbody s0.
    set (s1 := if o_two s0 t then reset s0 t false else s0) in E. assert (H1 : ok4 n s1 m) by (unfold s1; destruct (o_two s0 t); auto; apply k_reset; auto). clearbody s1.
    destruct (find (is_cz c t) (rev (o_avail s1 c))) as [g|]; [destruct (ig_mem g (o_avail s1 t))|]; [apply (k_rem4 _ _ _ _ _ _ _ H1 E)| |]; inversion E; apply k_add2; auto.
Qed.
Lemma k_plain : forall n st m c t st', ok4 n st m -> cnot_plain c t st = Ok st' -> ok4 n st' m.
Proof.
  intros n st m c t st' H E. unfold cnot_plain in E. set (s1 := if o_two st t then st else reset st t true) in E. assert (H1 : ok4 n s1 m) by (unfold s1; destruct (o_two st t); auto; apply k_reset; auto). clearbody s1.
  destruct (find (is_cnot c t) (rev (o_avail s1 c))) as [g|]; [destruct (ig_mem g (o_avail s1 t))|]; [apply (k_rem4 _ _ _ _ _ _ _ H1 E)| |]; inversion E; apply k_add2; auto.
Qed.
Lemma k_cnot : forall n st m sw c t st', ok4 n st m -> add_cnot sw c t st = Ok st' -> ok4 n st' m.
Proof.
  intros n st m sw c t st' H E. unfold add_cnot in E. destruct (o_two st c); [|apply (k_plain _ _ _ _ _ _ H E)]. assert (HR := k_reset n st m c false H).
  destruct (if o_two st t then None else find (is_cnot t c) (rev (o_avail st c))) as [g|]; [|apply (k_plain _ _ _ _ _ _ HR E)]. destruct (sw && ig_mem g (o_avail st t)); [|apply (k_plain _ _ _ _ _ _ HR E)].
  unfold cnot_swap in E. apply bind_ok in E. destruct E as [s1 [E1 E]]. assert (H1 := k_gates_rem _ _ _ _ _ _ H E1). apply bind_ok in E. destruct E as [s2 [E2 E]]. assert (H2 := k_gates_rem _ _ _ _ _ _ H1 E2).
  inversion E; subst st'. clear E.
  set (s3 := gates_app (gates_app (tick (set_two s2 (fset (fset (o_two s2) c false) t true))) c (o_count s2, GCNOT c t)) t (o_count s2, GCNOT c t)).
  assert (H3 : ok4 n s3 m) by (apply k_gates_app0; [|exact I|reflexivity]; apply k_gates_app0; [|exact I|reflexivity]; apply (k_same n s2); auto).
  apply (k_same n (set_avail s3 (fset (fset (o_avail s3) c [(o_count s2, GCNOT c t)]) t [(o_count s2, GCNOT c t)]))); auto.
  apply k_avail; auto. intros q x Hx. apply fset_in in Hx. destruct Hx as [[<-|[]]|Hx]; [exact I|]. apply fset_in in Hx. destruct Hx as [[<-|[]]|Hx]; [exact I|]. apply (proj1 (proj2 H3) q x Hx).
Qed.
Lemma k_zphase : forall n st m t z st', t < n -> ok4 n st m -> parse_zphase t (frac z 4) st = Ok st' -> ok4 n st' (m + (if Z.odd z then 1 else 0)).
Proof.
  intros n st m t z st' L H E. unfold parse_zphase in E.
  assert (P1 : exists w, (if nmem t (o_zs st) then qmod2 (frac z 4 + 1)%Qc else frac z 4) = frac w 4 /\ Z.odd w = Z.odd z).
  { destruct (nmem t (o_zs st)); [|eauto]. rewrite frac_1. destruct (add4 z 4) as [w [-> O]]. exists w. split; auto. rewrite O. apply xorb_false_r. }
  destruct P1 as [w [EW O1]]. rewrite EW in E. set (s0 := if nmem t (o_zs st) then _ else st) in E. assert (H0 : ok4 n s0 m) by (unfold s0; destruct (nmem t (o_zs st)); auto; apply (k_same n st); auto). clearbody s0.
  destruct (qeqb (frac w 4) 0); [inversion E; subst; apply (k_le n _ m); auto; lia|].
  assert (P2 : exists y, (if nmem t (o_nots s0) then qmod2 (- frac w 4)%Qc else frac w 4) = frac y 4 /\ Z.odd y = Z.odd z).
  { destruct (nmem t (o_nots s0)); [|eauto]. destruct (neg4 w) as [y [-> O]]. exists y. split; auto. congruence. }
  destruct P2 as [y [EY O2]]. rewrite EY in E. destruct (qeqb (frac y 4) 1); [inversion E; subst; apply (k_le n _ m); [apply (k_same n s0); auto|lia]|].
  apply bind_ok in E. destruct E as [s1 [E1 E]]. assert (H1 : ok4 n s1 m) by (destruct (nmem t (o_hads s0)); [apply (k_had _ _ _ _ _ H0 E1)|inversion E1; subst; auto]).
  assert (FIN : ok4 n (add_gate t (ZPhase t (frac y 4)) (if o_two s1 t then reset s1 t false else s1)) (m + (if Z.odd z then 1 else 0))).
  { rewrite <- O2, <- (cg_frac KZPhase t). apply k_add_gate; [|cbn; eauto]. destruct (o_two s1 t); auto. apply k_reset; auto. }
  destruct (if o_two s1 t then None else find is_zphase (o_avail s1 t)) as [[i2 g2]|] eqn:F; [|inversion E; subst; auto].
  destruct g2; try (inversion E; subst; exact FIN).
  assert (IN : In (i2, GZ k target phase) (o_avail s1 t)) by (destruct (o_two s1 t); [discriminate|]; apply find_some in F; tauto).
  destruct (proj1 (proj2 H1) t _ IN) as [x ->].
  apply bind_ok in E. destruct E as [s2 [E2 E]]. assert (H2 := k_avail_rem _ _ _ _ _ _ H1 E2). apply bind_ok in E. destruct E as [s3 [E3 E]]. destruct (k_gates_rem2 _ _ _ _ _ _ H2 L E3) as [m' [EM H3]]. cbn [snd] in EM. rewrite cg_frac in EM.
  destruct (add4 y x) as [v [Ev Ov]]. rewrite Ev in E. destruct (qeqb (frac v 4) 1); [inversion E; subst; apply (k_le n _ m'); [apply (k_same n s3); auto|lia]|]. destruct (qeqb (frac v 4) 0); [inversion E; subst; apply (k_le n _ m'); auto; lia|].
  inversion E; subst st'. apply (k_le n _ (m' + cg (ZPhase t (frac v 4)))); [apply k_add_gate; auto; cbn; eauto|]. unfold ZPhase. rewrite cg_frac, Ov. rewrite O2 in *. destruct (Z.odd z), (Z.odd x); cbn [xorb]; lia.
Qed.
Lemma k_parse_had : forall n st m t, ok4 n st m -> ok4 n (parse_had t st) m.
Proof.
  intros n st m t H. unfold parse_had. set (s0 := if nmem t (o_nots st) && _ then _ else _). assert (H0 : ok4 n s0 m).
  { unfold s0. destruct (nmem t (o_nots st) && negb (nmem t (o_zs st))); [apply (k_same n st); auto|]. destruct (nmem t (o_zs st) && negb (nmem t (o_nots st))); [apply (k_same n st); auto|auto]. }
  clearbody s0. assert (TG : ok4 n (set_hads s0 (toggle_element (o_hads s0) t)) m) by (apply (k_same n s0); auto).
  destruct (rev (o_gates s0 t)) as [|[i2 g2] [|[ih gh] r]] eqn:ER; auto; [destruct g2; auto|]. destruct g2; auto. destruct gh; auto. destruct (Pos.eqb_spec (GateModel.qden phase) 2) as [D|]; auto.
  assert (EG : o_gates s0 t = rev r ++ [(ih, GHAD target0); (i2, GZ k target phase)]) by (rewrite <- (rev_involutive (o_gates s0 t)), ER; cbn [rev]; rewrite <- app_assoc; auto).
  assert (Q : exists z, phase = frac z 4) by (apply (proj1 H0 t (i2, GZ k target phase)); rewrite EG; apply in_or_app; right; right; left; auto). destruct Q as [z ->]. apply qden_even in D.
  destruct (neg4 z) as [w [Ew Ow]]. cbv zeta. rewrite Ew.
  set (g2' := (i2, GZ _ target (frac w 4))). set (zp := (o_count s0, ZPhase t (frac w 4))).
  assert (G4 : q4 (snd g2') /\ cg (snd g2') = 0) by (split; [cbn; eauto|unfold g2'; cbn [snd]; rewrite cg_frac, Ow, D; auto]). assert (Z4 : q4 (snd zp) /\ cg (snd zp) = 0) by (split; [cbn; eauto|unfold zp, ZPhase; cbn [snd]; rewrite cg_frac, Ow, D; auto]).
  apply k_avail.
  - apply k_gates0; [apply k_tick; auto| |].
    + intros g Hg. apply in_app_or in Hg. destruct Hg as [Hg|[<-|[<-|[<-|[]]]]]; [|tauto|exact I|tauto]. apply (proj1 H0 t g). rewrite EG. apply in_or_app. auto.
    + cbn [o_gates tick set_count]. rewrite EG, !cl_app, !cl_cons, (proj2 G4), (proj2 Z4). cbn [snd]. change (cg (GHAD target0)) with 0. lia.
  - intros q g Hg. apply fset_in in Hg. destruct Hg as [Hg|Hg]; [|apply (proj1 (proj2 H0) q g Hg)]. apply in_map_iff in Hg. destruct Hg as [x [<- Hx]]. destruct (ig_eqb x _); [tauto|]. apply (proj1 (proj2 H0) t x Hx).
Qed.
Lemma perm_inv_lt : forall n st q i, perm_inv n st q = Ok i -> i < n.
Proof. intros n st q i E. unfold perm_inv in E. destruct (find _ _) eqn:F; [|discriminate]. inversion E; subst. apply find_some in F. destruct F as [F _]. apply in_seq in F. lia. Qed.
Lemma k_parse_cz : forall n st m mz sw a b st', ok4 n st m -> parse_cz mz sw a b st = Ok st' -> ok4 n st' m.
Proof.
  intros n st m mz sw a b st' H E. unfold parse_cz in E. set (s0 := if nmem a (o_nots st) then _ else st) in E. assert (H0 : ok4 n s0 m) by (unfold s0; destruct (nmem a (o_nots st)); auto; apply (k_same n st); auto). clearbody s0.
  set (s1 := if nmem b (o_nots s0) then _ else s0) in E. assert (H1 : ok4 n s1 m) by (unfold s1; destruct (nmem b (o_nots s0)); auto; apply (k_same n s0); auto). clearbody s1.
  apply bind_ok in E. destruct E as [s2 [E2 E]]. assert (H2 : ok4 n s2 m).
  { destruct (nmem a (o_hads s1) && nmem b (o_hads s1)); [|inversion E2; subst; auto]. apply bind_ok in E2. destruct E2 as [s3 [E3 E4]]. apply (k_had _ _ _ _ _ (k_had _ _ _ _ _ H1 E3) E4). }
  destruct (negb (nmem a (o_hads s2)) && negb (nmem b (o_hads s2))); [destruct (Nat.ltb b a); apply (k_cz _ _ _ _ _ _ _ H2 E)|]. destruct (nmem a (o_hads s2)); apply (k_cnot _ _ _ _ _ _ _ H2 E).
Qed.
Lemma k_parse_cnot : forall n st m mz sw a b st', ok4 n st m -> parse_cnot mz sw a b st = Ok st' -> ok4 n st' m.
Proof.
  intros n st m mz sw a b st' H E. unfold parse_cnot in E. set (s0 := if nmem a (o_nots st) then _ else st) in E. assert (H0 : ok4 n s0 m) by (unfold s0; destruct (nmem a (o_nots st)); auto; apply (k_same n st); auto). clearbody s0.
  set (s1 := if nmem b (o_zs s0) then _ else s0) in E. assert (H1 : ok4 n s1 m) by (unfold s1; destruct (nmem b (o_zs s0)); auto; apply (k_same n s0); auto). clearbody s1.
  destruct (nmem a (o_hads s1) && nmem b (o_hads s1)); [apply (k_cnot _ _ _ _ _ _ _ H1 E)|]. destruct (negb (nmem a (o_hads s1)) && negb (nmem b (o_hads s1))); [apply (k_cnot _ _ _ _ _ _ _ H1 E)|].
  destruct (nmem b (o_hads s1)); [apply (k_cz _ _ _ _ _ _ _ H1 E)|]. apply bind_ok in E. destruct E as [s2 [E2 E]]. apply (k_cnot _ _ _ _ _ _ _ (k_had _ _ _ _ _ H1 E2) E).
Qed.
Lemma k_gate : forall n mz sw st m g st', ok4 n st m -> q4 g -> parse_gate n mz sw st g = Ok st' -> ok4 n st' (m + cg g).
Proof.
  intros n mz sw st m g st' H Q E. unfold parse_gate in E. apply bind_ok in E. destruct E as [t0 [_ E]]. apply bind_ok in E. destruct E as [t [ET E]]. apply perm_inv_lt in ET.
  destruct g; try discriminate.
  - destruct Q as [z ->]. rewrite cg_frac. apply (k_zphase _ _ _ _ _ _ ET H E).
  - destruct k; try discriminate. inversion E; subst. apply (k_le n _ m); [apply (k_same n st); auto|lia].
  - inversion E; subst. apply (k_le n _ m); [apply k_parse_had; auto|lia].
  - apply bind_ok in E. destruct E as [c [_ E]]. apply (k_le n _ m); [apply (k_parse_cnot _ _ _ _ _ _ _ _ H E)|lia].
  - apply bind_ok in E. destruct E as [c [_ E]]. apply (k_le n _ m); [apply (k_parse_cz _ _ _ _ _ _ _ _ H E)|lia].
Qed.
Lemma k_all : forall n mz sw l st m st', ok4 n st m -> Forall q4 l -> foldM (parse_gate n mz sw) l st = Ok st' -> ok4 n st' (m + tcnt l).
Proof.
  intros n mz sw. induction l as [|g l IH]; intros st m st' H F E; [inversion E; subst; rewrite Nat.add_0_r; auto|]. inversion F; subst. cbn [foldM] in E. apply bind_ok in E. destruct E as [s1 [E1 E]].
  assert (K := IH _ _ _ (k_gate _ _ _ _ _ _ _ H H2 E1) H3 E). change (g :: l) with ([g] ++ l). rewrite ToddSem.tcnt_app. change (tcnt [g]) with (cg g). rewrite Nat.add_assoc. auto.
Qed.

(** ** topological_sort_gates *)
Definition so4 (st : sortst) : Prop := (forall q g, In g (s_gates st q) -> q4 (snd g)) /\ forall g, In g (s_out st) -> q4 (snd g).
Definition l4 (l : list igate) : Prop := forall g, In g l -> q4 (snd g).
Lemma two_c : forall g ct, two_qubit g = Some ct -> q4 (snd g) /\ cg (snd g) = 0.
Proof. intros g ct E. unfold two_qubit in E. destruct (snd g); try discriminate; split; auto; exact I. Qed.
Lemma so4_out : forall st g av, so4 st -> q4 (snd g) -> so4 (mkS (s_gates st) (s_out st ++ [g]) av).
Proof. intros st g av [A B] Q. split; [exact A|]. intros x Hx. apply in_app_or in Hx. destruct Hx as [Hx|[<-|[]]]; auto. Qed.
Lemma so4_pair : forall q g ct st st', so4 st -> two_qubit g = Some ct -> take_pair q g ct st = Ok st' -> so4 st' /\ (forall q', cl (s_gates st' q') = cl (s_gates st q')) /\ cl (s_out st') = cl (s_out st).
Proof.
  intros q g ct st st' [A B] T E. unfold take_pair in E. apply bind_ok in E. destruct E as [l [E1 E2]]. inversion E2; subst. clear E2. destruct (ig_remove_in _ _ _ E1) as [C D]. destruct (two_c g ct T) as [Q Z].
  cbn [s_gates s_out]. split; [|split].
  - split; cbn [s_gates s_out]; [|intros x Hx; apply in_app_or in Hx; destruct Hx as [Hx|[<-|[]]]; auto]. intros q' x Hx. apply fset_in in Hx. destruct Hx as [Hx|Hx]; eauto.
  - intros q'. unfold fset. destruct (Nat.eqb_spec q' (other_end q (fst ct) (snd ct))) as [->|]; auto. lia.
  - rewrite cl_app, cl_cons, cl_nil. lia.
Qed.
Lemma behind4 : forall q z gs st rest st', behind q z gs st = Ok (rest, st') -> so4 st -> l4 gs ->
  so4 st' /\ l4 rest /\ (forall q', cl (s_gates st' q') = cl (s_gates st q')) /\ cl (s_out st') + cl rest = cl (s_out st) + cl gs.
Proof.
  intros q z. induction gs as [|g gs IH]; intros st rest st' E S L; cbn [behind] in E; [inversion E; subst; auto|]. assert (Qg := L g (or_introl eq_refl)). assert (L' : l4 gs) by (intros x Hx; apply L; right; auto).
  destruct ((z && is_zphase g) || (negb z && is_xphase g)).
  - destruct (IH _ _ _ E (so4_out _ _ _ S Qg) L') as [A [B [C D]]]. cbn [s_gates s_out] in *. split; auto. split; auto. split; auto. rewrite D, cl_app, !cl_cons, cl_nil. lia.
  - destruct (two_qubit g) as [ct|] eqn:T; [|inversion E; subst; auto]. destruct ((z && z_end q g) || (negb z && x_end q g)); [|inversion E; subst; auto]. destruct (two_c g ct T) as [_ Z]. destruct (nmem (fst g) (s_av st)).
    + apply bind_ok in E. destruct E as [s1 [E1 E]]. destruct (so4_pair _ _ _ _ _ S T E1) as [A1 [B1 C1]]. destruct (IH _ _ _ E A1 L') as [A [B [C D]]]. split; auto. split; auto. split; [intros q'; rewrite C; auto|]. rewrite D, cl_cons. lia.
    + apply bind_ok in E. destruct E as [[r s1] [E1 E]]. inversion E; subst. cbn [fst snd]. destruct (IH _ _ _ E1 S L') as [A [B [C D]]]. cbn [s_gates s_out] in *. split; auto. split; [intros x [<-|Hx]; auto|]. split; auto. rewrite !cl_cons. lia.
Qed.
Lemma front4 : forall q gs st rest st', front q gs st = Ok (rest, st') -> so4 st -> l4 gs ->
  so4 st' /\ l4 rest /\ (forall q', cl (s_gates st' q') = cl (s_gates st q')) /\ cl (s_out st') + cl rest = cl (s_out st) + cl gs.
Proof.
  intros q. induction gs as [|g gs IH]; intros st rest st' E S L; cbn [front] in E; [inversion E; subst; auto|]. assert (Qg := L g (or_introl eq_refl)). assert (L' : l4 gs) by (intros x Hx; apply L; right; auto).
  destruct (two_qubit g) as [ct|] eqn:T.
  - destruct (two_c g ct T) as [_ Z]. destruct (nmem (fst g) (s_av st)).
    + apply bind_ok in E. destruct E as [s1 [E1 E]]. destruct (so4_pair _ _ _ _ _ S T E1) as [A1 [B1 C1]]. destruct (IH _ _ _ E A1 L') as [A [B [C D]]]. split; auto. split; auto. split; [intros q'; rewrite C; auto|]. rewrite D, cl_cons. lia.
    + apply bind_ok in E. destruct E as [[r s1] [E1 E]]. inversion E; subst. cbn [fst snd]. destruct (behind4 _ _ _ _ _ _ E1 S L') as [A [B [C D]]]. cbn [s_gates s_out] in *. split; auto. split; [intros x [<-|Hx]; auto|]. split; auto. rewrite !cl_cons. lia.
  - destruct (IH _ _ _ E (so4_out _ _ _ S Qg) L') as [A [B [C D]]]. cbn [s_gates s_out] in *. split; auto. split; auto. split; auto. rewrite D, cl_app, !cl_cons, cl_nil. lia.
Qed.
Lemma cnt_ext : forall n F G, (forall q, cl (F q) = cl (G q)) -> cnt n F = cnt n G.
Proof. intros n F G H. unfold cnt. induction (seq 0 n) as [|q l IH]; auto. cbn [fold_right]. rewrite H, IH. auto. Qed.
Lemma sort_qubit4 : forall n q st st', q < n -> sort_qubit st q = Ok st' -> so4 st -> so4 st' /\ cl (s_out st') + cnt n (s_gates st') = cl (s_out st) + cnt n (s_gates st).
Proof.
  intros n q st st' L E S. unfold sort_qubit in E. apply bind_ok in E. destruct E as [[r s1] [E1 E]]. inversion E; subst. clear E. cbn [fst snd]. destruct (front4 _ _ _ _ _ E1 S (fun g Hg => proj1 S q g Hg)) as [A [B [C D]]]. split.
  - split; cbn [s_gates s_out]; [|apply A]. intros q' x Hx. apply fset_in in Hx. destruct Hx as [Hx|Hx]; [apply B; auto|apply (proj1 A q' x Hx)].
  - cbn [s_gates s_out]. assert (K := cnt_fset n (s_gates s1) q r L). rewrite (cnt_ext n (s_gates s1) (s_gates st) C) in K. rewrite C in K. lia.
Qed.
Lemma sort_round4 : forall n qs st st', (forall q, In q qs -> q < n) -> foldM sort_qubit qs st = Ok st' -> so4 st -> so4 st' /\ cl (s_out st') + cnt n (s_gates st') = cl (s_out st) + cnt n (s_gates st).
Proof.
  intros n. induction qs as [|q qs IH]; intros st st' L E S; [inversion E; subst; auto|]. cbn [foldM] in E. apply bind_ok in E. destruct E as [s1 [E1 E]]. destruct (sort_qubit4 n q _ _ (L q (or_introl eq_refl)) E1 S) as [A B].
  destruct (IH _ _ (fun x Hx => L x (or_intror Hx)) E A) as [C D]. split; auto. lia.
Qed.
Lemma none_left : forall n G, any_left n G = false -> cnt n G = 0.
Proof.
  intros n G H. unfold any_left in H. unfold cnt. induction (seq 0 n) as [|q l IH]; auto. cbn [existsb fold_right] in *. apply orb_false_iff in H. destruct H as [A B]. rewrite (IH B). destruct (G q); [auto|discriminate].
Qed.
Lemma sort_loop4 : forall fuel n G out out', sort_loop fuel n G out = Ok out' -> (forall q, l4 (G q)) -> l4 out -> l4 out' /\ cl out' = cl out + cnt n G.
Proof.
  induction fuel as [|f IH]; intros n G out out' E LG LO; cbn [sort_loop] in E; destruct (any_left n G) eqn:AN; try discriminate; try (inversion E; subst; split; [exact LO|rewrite (none_left n G AN); lia]).
  apply bind_ok in E. destruct E as [st [E1 E]]. destruct (sort_round4 n (seq 0 n) _ _ ltac:(intros q Hq; apply in_seq in Hq; lia) E1) as [[A1 A2] B]; [split; auto|]. destruct (IH _ _ _ _ E A1 A2) as [C D]. split; auto. cbn [s_gates s_out] in B. lia.
Qed.

(** ** the passes *)
Definition cor_form (cor : list gate) : Prop := exists ns sw, cor = map NOTg ns ++ map (fun ab => GSWAP (fst ab) (snd ab)) sw.
Lemma k_start : forall n, ok4 n o_start 0.
Proof.
  intros n. split; [intros q g []|split; [intros q g []|]]. unfold cnt, o_start. cbn [o_gates]. induction (seq 0 n) as [|a l IH]; [auto|exact IH].
Qed.
Lemma k_hads : forall n hs st m st', ok4 n st m -> foldM (fun st t => add_hadamard t st) hs st = Ok st' -> ok4 n st' m.
Proof.
  intros n. induction hs as [|t hs IH]; intros st m st' H E; [inversion E; subst; auto|]. cbn [foldM] in E. apply bind_ok in E. destruct E as [s4 [E4 E]]. apply (IH s4 m st' (k_had _ _ _ _ _ H E4) E).
Qed.
Lemma forward4 : forall n mz sw gs out cor, Forall q4 gs -> parse_forward n mz sw gs = Ok (out, cor) -> Forall q4 out /\ tcnt out <= tcnt gs /\ cor_form cor.
Proof.
  intros n mz sw gs out cor F E. unfold parse_forward in E. apply bind_ok in E. destruct E as [s1 [E1 E]].
  assert (H0 := k_start n).
  assert (H1 := k_all _ _ _ _ _ _ _ H0 F E1). apply bind_ok in E. destruct E as [s2 [E2 E]].
  assert (H2 := k_hads _ _ _ _ _ H1 E2).
  set (s3 := fold_left _ (o_zs s2) s2) in E.
  assert (H3 : ok4 n s3 (0 + tcnt gs)).
  { unfold s3. generalize (o_zs s2). intros zs. revert H2. generalize s2. clear. induction zs as [|t zs IH]; intros s2 H; auto. cbn [fold_left]. apply IH. apply k_gates_app0; [apply k_tick; auto|exists 4%Z; apply frac_1|reflexivity]. }
  clearbody s3. apply bind_ok in E. destruct E as [o [E3 E]]. apply bind_ok in E. destruct E as [sws [E4 E]]. inversion E; subst. clear E. unfold topological_sort_gates in E3. apply bind_ok in E3. destruct E3 as [o' [E3 E5]]. inversion E5; subst. clear E5.
  destruct (sort_loop4 _ _ _ _ _ E3 (proj1 H3) ltac:(intros g [])) as [A B]. rewrite cl_nil in B. split; [|split].
  - apply Forall_forall. intros g Hg. apply in_map_iff in Hg. destruct Hg as [x [<- Hx]]. apply A. auto.
  - change (tcnt (map snd o')) with (cl o'). destruct H3 as [_ [_ H3]]. lia.
  - eexists _, _. reflexivity.
Qed.
Lemma extend4 : forall cor gs gs', cor_form cor -> Forall q4 gs -> extend_basic gs cor = Ok gs' -> Forall q4 gs' /\ tcnt gs' = tcnt gs.
Proof.
  assert (K : forall cor gs gs', (forall g, In g cor -> exists l, to_basic_gates g = Ok l /\ Forall q4 l /\ tcnt l = 0) -> Forall q4 gs -> extend_basic gs cor = Ok gs' -> Forall q4 gs' /\ tcnt gs' = tcnt gs).
  { unfold extend_basic. induction cor as [|g cor IH]; intros gs gs' H F E; [inversion E; subst; auto|]. cbn [foldM] in E. destruct (H g (or_introl eq_refl)) as [l [El [Fl Cl]]]. rewrite El in E. cbn [bind] in E.
    destruct (IH _ _ (fun x Hx => H x (or_intror Hx)) (proj2 (Forall_app _ _ _) (conj F Fl)) E) as [A B]. split; auto. rewrite B, ToddSem.tcnt_app, Cl. lia. }
  intros cor gs gs' [ns [sw ->]]. apply K. intros g Hg. apply in_app_or in Hg. destruct Hg as [Hg|Hg]; apply in_map_iff in Hg; destruct Hg as [x [<- _]]; eexists; (split; [reflexivity|split; [repeat constructor|reflexivity]]).
Qed.
Lemma opt_loop4 : forall fuel n sw maxit i mz count gs out cor, Forall q4 gs -> opt_loop fuel n sw maxit i mz count gs = Ok (out, cor) -> Forall q4 out /\ tcnt out <= tcnt gs /\ cor_form cor.
Proof.
  induction fuel as [|f IH]; intros n sw maxit i mz count gs out cor F E; [discriminate|]. cbn [opt_loop] in E. apply bind_ok in E. destruct E as [[o1 c1] [E1 E]]. apply bind_ok in E. destruct E as [g1 [E2 E]]. apply bind_ok in E. destruct E as [[o2 c2] [E3 E]]. apply bind_ok in E. destruct E as [s [_ E]]. cbn [fst snd] in *.
  destruct (forward4 _ _ _ _ _ _ (Forall_rev F) E1) as [F1 [T1 C1]]. destruct (extend4 _ _ _ C1 F1 E2) as [F2 T2]. destruct (forward4 _ _ _ _ _ _ (Forall_rev F2) E3) as [F3 [T3 C3]].
  assert (TR : forall l, tcnt (rev l) = tcnt l) by (induction l as [|x l IHl]; auto; cbn [rev]; rewrite ToddSem.tcnt_app, IHl; change (x :: l) with ([x] ++ l); rewrite ToddSem.tcnt_app; lia). rewrite TR in *.
  destruct (mz && (stats_le count s || (maxit <=? S i))); [inversion E; subst; split; auto; split; auto; lia|]. apply bind_ok in E. destruct E as [g2 [E4 E]]. destruct (extend4 _ _ _ C3 F3 E4) as [F4 T4]. destruct (IH _ _ _ _ _ _ _ _ _ F4 E) as [A [B C]]. split; auto. split; auto. lia.
Qed.
Theorem parse_sep4 : forall sw maxit c c' cor, Forall q4 (cgates c) -> parse_circuit_sep sw maxit c = Ok (c', cor) -> Forall q4 (cgates c') /\ tcnt (cgates c') <= tcnt (cgates c) /\ cor_form cor.
Proof.
  intros sw maxit c c' cor F E. unfold parse_circuit_sep in E. apply bind_ok in E. destruct E as [[o1 c1] [E1 E]]. apply bind_ok in E. destruct E as [s [_ E]]. apply bind_ok in E. destruct E as [g0 [E2 E]]. apply bind_ok in E. destruct E as [[o2 c2] [E3 E]]. inversion E; subst. cbn [fst snd cgates] in *.
  destruct (forward4 _ _ _ _ _ _ F E1) as [F1 [T1 C1]]. destruct (extend4 _ _ _ C1 F1 E2) as [F2 T2]. destruct (opt_loop4 _ _ _ _ _ _ _ _ _ _ F2 E3) as [F3 [T3 C3]]. split; auto. split; auto. lia.
Qed.
Theorem parse_circuit4 : forall sw maxit c c', Forall q4 (cgates c) -> parse_circuit sw maxit c = Ok c' -> Forall q4 (cgates c') /\ tcnt (cgates c') <= tcnt (cgates c).
Proof.
  intros sw maxit c c' F E. unfold parse_circuit in E. apply bind_ok in E. destruct E as [[c1 cor] [E1 E]]. apply bind_ok in E. destruct E as [gs [E2 E]]. inversion E; subst. cbn [fst snd cgates] in *.
  destruct (parse_sep4 _ _ _ _ _ F E1) as [A [B C]]. destruct (extend4 _ _ _ C A E2) as [D G]. split; auto. lia.
Qed.

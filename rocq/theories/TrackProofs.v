(** The parity matrix kept by CNOT_tracker is that of its circuit *)
From Coq Require Import Reals QArith Qcanon List Bool Arith Lia FunctionalExtensionality.
From Verif Require Import CNum Base GraphSem GateModel CircSpec SumLemmas LinModel LinProofs LinAlg TrackModel.
Import ListNotations.
Open Scope nat_scope.

(** ** Specification: what a list of CNOTs does to bits *)
Definition act (g : gate) (x : assignment) : assignment := match g with GCNOT c t => GraphSem.upd x t (xorb (x t) (x c)) | _ => x end.
Definition run_bits (l : list gate) (x : assignment) : assignment := fold_left (fun x g => act g x) l x.
Definition cnot_in (n : nat) (g : gate) : Prop := match g with GCNOT c t => c < n /\ t < n /\ c <> t | _ => False end.
(** the matrix m sends the bits x to the bits y *)
Definition mat_acts (n : nat) (m : mat) (x y : assignment) : Prop := forall q, q < n -> y q = xsum (fun k => get m q k && x k) n.
(** the calls that keep a tracker up to date *)
Inductive top := RowAdd (a b : nat) | ColAdd (a b : nat) | AddGate (c t : nat).
Definition top_ok (n : nat) (o : top) : Prop := match o with RowAdd a b | ColAdd a b | AddGate a b => a < n /\ b < n /\ a <> b end.
Definition tk_do (t : tracker) (o : top) : res tracker :=
  match o with RowAdd a b => tk_row_add a b t | ColAdd a b => tk_col_add a b t | AddGate c d => tk_add_gate (GCNOT c d) t end.

(** the gates those calls record: row operations after, column operations before *)
Definition rec_gates (l : list gate) (o : top) : list gate :=
  match o with RowAdd a b | AddGate a b => l ++ [GCNOT a b] | ColAdd a b => GCNOT b a :: l end.

Lemma run_app : forall l l' x, run_bits (l ++ l') x = run_bits l' (run_bits l x).
Proof. intros. unfold run_bits. apply fold_left_app. Qed.
Lemma act_act : forall n g x, cnot_in n g -> act g (act g x) = x.
Proof.
  intros n [] x H; simpl in H; try tauto. destruct H as [_ [_ D]]. simpl. rewrite !upd_same, (upd_other _ _ _ control) by auto. extensionality u. unfold GraphSem.upd.
  destruct (Nat.eqb_spec u target); auto. subst. destruct (x target), (x control); auto.
Qed.
Lemma cden_run : forall n l s x, Forall (cnot_in n) l -> cden l s (run_bits l x) = s x.
Proof.
  intros n. induction l as [|g l IH]; intros s x H; auto. apply Forall_cons_iff in H. destruct H as [A B].
  change (cden (g :: l) s) with (cden l (gden g s)). change (run_bits (g :: l) x) with (run_bits l (act g x)). rewrite IH by auto.
  transitivity (s (act g (act g x))); [destruct g; simpl in A; try tauto; reflexivity|]. rewrite (act_act n) by auto. auto.
Qed.
Lemma run_far : forall n l x q, Forall (cnot_in n) l -> n <= q -> run_bits l x q = x q.
Proof.
  intros n. induction l as [|g l IH]; intros x q F H; auto. apply Forall_cons_iff in F. destruct F as [A B]. change (run_bits (g :: l) x) with (run_bits l (act g x)). rewrite IH by auto.
  destruct g; simpl in A; try tauto. simpl. apply upd_other. lia.
Qed.
(** the invariant *)
Record tinv (n : nat) (t : tracker) : Prop := mktinv {
  ti_n : tk_n t = n; ti_rect : rect n n (tk_mat t); ti_gates : Forall (cnot_in n) (tk_gates t);
  ti_act : forall x, mat_acts n (tk_mat t) x (run_bits (tk_gates t) x) }.
Lemma id_rect : forall n, rect n n (mat_id n).
Proof. intros. split; [unfold mat_id; rewrite map_length, seq_length; auto|]. intros r Hr. unfold mat_id in Hr. apply in_map_iff in Hr. destruct Hr as [i [<- _]]. rewrite map_length, seq_length. auto. Qed.
Lemma id_acts : forall n x, mat_acts n (mat_id n) x x.
Proof.
  intros n x q Hq. rewrite (xsum_one _ n q Hq).
  - unfold mat_id. rewrite get_map_seq, Nat.eqb_refl by auto. auto.
  - intros k Hk D. unfold mat_id. rewrite get_map_seq by auto. destruct (Nat.eqb_spec q k); [congruence|auto].
Qed.
Lemma tinv_new : forall n, tinv n (tk_new n).
Proof. intros n. constructor; auto; [apply id_rect|constructor|]. intros x. apply id_acts. Qed.
Lemma row_acts : forall n m c t x y, rect n n m -> c < n -> t < n -> mat_acts n m x y -> mat_acts n (row_add c t m) x (GraphSem.upd y t (xorb (y t) (y c))).
Proof.
  intros n m c t x y R Hc Ht A q Hq. unfold GraphSem.upd. rewrite (xsum_ext _ (fun k => xorb (if Nat.eqb q t then get m c k && x k else false) (get m q k && x k))).
  - rewrite xsum_xor, <- A by auto. destruct (Nat.eqb_spec q t) as [->|D]; [rewrite <- A by auto; apply xorb_comm|rewrite xsum_false; destruct (y q); auto].
  - intros k Hk. rewrite (get_row_add n n) by auto. destruct (Nat.eqb_spec q t) as [->|D]; [|destruct (get m q k), (x k); auto]. destruct (get m c k), (get m t k), (x k); auto.
Qed.
Lemma idx_ok : forall n m i, rect n n m -> i < n -> idx m i = Ok tt.
Proof. intros n m i [R _] H. unfold idx. rewrite R. apply Nat.ltb_lt in H. rewrite H. auto. Qed.
Lemma tinv_row : forall n t a b, tinv n t -> a < n -> b < n -> a <> b -> exists t', tk_row_add a b t = Ok t' /\ tinv n t' /\ tk_gates t' = tk_gates t ++ [GCNOT a b].
Proof.
  intros n t a b [N R G A] Ha Hb D. unfold tk_row_add. cbn [tk_push tk_mat]. rewrite !(idx_ok n) by auto. cbn [bind]. eexists. split; [reflexivity|]. split; auto. constructor; auto.
  - cbn [tk_mat tk_push]. apply row_add_rect; auto.
  - cbn [tk_gates tk_push]. apply Forall_app. split; auto. constructor; [simpl; auto|constructor].
  - intros x. cbn [tk_gates tk_push tk_mat]. rewrite run_app. cbn [run_bits fold_left act]. apply row_acts; auto.
Qed.
Lemma tinv_col : forall n t a b, tinv n t -> a < n -> b < n -> a <> b -> exists t', tk_col_add a b t = Ok t' /\ tinv n t' /\ tk_gates t' = GCNOT b a :: tk_gates t.
Proof.
  intros n t a b [N R G A] Ha Hb D. unfold tk_col_add. cbn [tk_mat]. destruct R as [R1 R2]. rewrite R1. destruct (Nat.eqb_spec n 0); [lia|].
  assert (R : rect n n (tk_mat t)) by (split; auto). rewrite !(idx_ok n) by auto. cbn [bind].
  replace (if existsb _ _ then Ok tt else Ok tt) with (@Ok unit tt) by (destruct (existsb _ _); auto). cbn [bind]. eexists. split; [reflexivity|]. split; auto. constructor; auto.
  - cbn [tk_mat]. apply col_add_rect; auto.
  - cbn [tk_gates]. constructor; auto. simpl. auto.
  - intros x q Hq. cbn [tk_gates tk_mat run_bits fold_left act]. fold (run_bits (tk_gates t) (GraphSem.upd x a (xorb (x a) (x b)))). rewrite A by auto.
    set (m := tk_mat t) in *.
    rewrite (xsum_ext _ (fun k => xorb (Nat.eqb k a && (get m q a && x b)) (get m q k && x k))).
    2:{ intros k Hk. unfold GraphSem.upd. destruct (Nat.eqb_spec k a) as [->|]; [|destruct (get m q k), (x k); auto]. destruct (get m q a), (x a), (x b); auto. }
    symmetry. rewrite (xsum_ext _ (fun k => xorb (Nat.eqb k b && (get m q a && x b)) (get m q k && x k))).
    2:{ intros k Hk. rewrite (get_col_add n n) by auto. destruct (Nat.eqb_spec k b) as [->|]; [|destruct (get m q k), (x k); auto]. destruct (get m q b), (get m q a), (x b); auto. }
    rewrite !xsum_xor, !(xsum_delta _ (fun _ => get m q a && x b)).
    apply Nat.ltb_lt in Ha. apply Nat.ltb_lt in Hb. rewrite Ha, Hb. auto.
Qed.
Lemma tinv_do : forall n t o, tinv n t -> top_ok n o -> exists t', tk_do t o = Ok t' /\ tinv n t' /\ tk_gates t' = rec_gates (tk_gates t) o.
Proof.
  intros n t [a b|a b|a b] I [A [B D]]; simpl.
  - apply tinv_row; auto.
  - apply tinv_col; auto.
  - apply tinv_row; auto.
Qed.
Lemma tinv_run : forall n ops t, tinv n t -> Forall (top_ok n) ops -> exists t', foldM tk_do ops t = Ok t' /\ tinv n t' /\ tk_gates t' = fold_left rec_gates ops (tk_gates t).
Proof.
  intros n. induction ops as [|o ops IH]; intros t I F; [exists t; auto|]. apply Forall_cons_iff in F. destruct F as [A B].
  destruct (tinv_do n t o I A) as [t1 [E [I1 G]]]. simpl. rewrite E, <- G. simpl. apply IH; auto.
Qed.
(** the matrix is the parity map of the circuit *)
Theorem tracker_exact : forall n ops, Forall (top_ok n) ops -> exists t, foldM tk_do ops (tk_new n) = Ok t /\ tk_n t = n /\ rect n n (tk_mat t) /\
  tk_gates t = fold_left rec_gates ops [] /\
  forall x, exists y, mat_acts n (tk_mat t) x y /\ (forall q, n <= q -> y q = x q) /\ forall s, cden (tk_gates t) s y = s x.
Proof.
  intros n ops F. destruct (tinv_run n ops _ (tinv_new n) F) as [t [E [I G]]]. exists t. split; auto. split; [apply I|]. split; [apply I|]. split; [auto|].
  intros x. exists (run_bits (tk_gates t) x). split; [apply I|]. split; [intros q Hq; apply (run_far n); auto; apply I|]. intros s. apply (cden_run n). apply I.
Qed.
(** from_circuit on a circuit of CNOTs *)
Lemma upd_run : forall n l m l0, rect n n m -> Forall (cnot_in n) l -> (forall x, mat_acts n m x (run_bits l0 x)) ->
  exists m', foldM upd_gate l m = Ok m' /\ rect n n m' /\ forall x, mat_acts n m' x (run_bits (l0 ++ l) x).
Proof.
  intros n. induction l as [|g l IH]; intros m l0 R F A; [exists m; rewrite app_nil_r; auto|]. apply Forall_cons_iff in F. destruct F as [G F].
  destruct g; simpl in G; try tauto. destruct G as [Hc [Ht D]]. cbn [foldM upd_gate]. rewrite !(idx_ok n) by auto. cbn [bind].
  replace (l0 ++ GCNOT control target :: l) with ((l0 ++ [GCNOT control target]) ++ l) by (rewrite <- app_assoc; auto).
  apply IH; auto; [apply row_add_rect; auto|]. intros x. rewrite run_app. cbn [run_bits fold_left act]. apply row_acts; auto.
Qed.
Theorem from_circuit_exact : forall c, Forall (cnot_in (cqubits c)) (cgates c) -> exists t, tk_from_circuit c = Ok t /\
  tk_n t = cqubits c /\ tk_gates t = cgates c /\ rect (cqubits c) (cqubits c) (tk_mat t) /\
  forall x, exists y, mat_acts (cqubits c) (tk_mat t) x y /\ (forall q, cqubits c <= q -> y q = x q) /\ forall s, cden (cgates c) s y = s x.
Proof.
  intros c F. unfold tk_from_circuit, tk_update. cbn [tk_n tk_gates]. destruct (upd_run (cqubits c) (cgates c) (mat_id (cqubits c)) [] (id_rect _) F) as [m [E [R A]]].
  { intros x. apply id_acts. }
  rewrite E. cbn [bind]. eexists. split; [reflexivity|]. split; auto. split; auto. split; auto.
  intros x. exists (run_bits (cgates c) x). split; [apply A|]. split; [intros q Hq; apply (run_far (cqubits c)); auto|]. intros s. apply (cden_run (cqubits c)); auto.
Qed.

(** ** Refutations *)
(** a CNOT added by name leaves the matrix as it was *)
Theorem add_name_stale : exists n t x y s, tk_add_name (GCNOT 0 1) (tk_new n) = Ok t /\ tk_gates t = [GCNOT 0 1] /\ mat_acts n (tk_mat t) x y /\
  s x <> C0 /\ cden (tk_gates t) s y = C0.
Proof.
  exists 2, (tk_push (GCNOT 0 1) (tk_new 2)), (fun _ => true), (fun _ => true), (fun x : assignment => if x 1 then C1 else C0).
  split; [reflexivity|]. split; [reflexivity|]. split; [apply id_acts|]. split; [apply C1_neq_C0|]. reflexivity.
Qed.
(** a layering puts gates sharing a qubit in increasing layers *)
Definition touches (g : gate) (q : nat) : Prop := match g with GCNOT a b | GCZ a b => q = a \/ q = b | _ => False end.
Definition layering (l : list gate) (d : nat) (L : nat -> nat) : Prop :=
  (forall i, i < length l -> L i < d) /\
  (forall i j g h q, i < j -> nth_error l i = Some g -> nth_error l j = Some h -> touches g q -> touches h q -> L i < L j).
Theorem cnot_depth_undercounts : exists ops t, foldM tk_do ops (tk_new 2) = Ok t /\ Forall (top_ok 2) ops /\ forall L, ~ layering (tk_gates t) (cnot_depth t) L.
Proof.
  exists [RowAdd 0 1; RowAdd 0 1; RowAdd 0 1]. eexists. split; [reflexivity|]. split; [repeat constructor; discriminate|]. intros L [A B]. cbn in A, B.
  assert (L 0 < L 1) by (apply (B 0 1 (GCNOT 0 1) (GCNOT 0 1) 0); simpl; auto).
  assert (L 1 < L 2) by (apply (B 1 2 (GCNOT 0 1) (GCNOT 0 1) 0); simpl; auto).
  assert (L 2 < 2) by (apply A; auto). lia.
Qed.

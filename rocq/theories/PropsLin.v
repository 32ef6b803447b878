(** Property theorems: linear algebra over GF(2) and permutations (C16 - C23).
    [h] is always the content of the list kept in the default argument
    [pivot_cols] of gauss when the call starts, so every theorem holds after any
    history of calls.  [wfm m]: all rows of [m] have the same length. *)
From Coq Require Import List Bool Arith NArith Permutation Lia.
From Verif Require Import Base LinModel LinProofs LinAlg LinRank LinUse LinFacts PermModel PermProofs.
Import ListNotations.

Local Notation O_ := false. Local Notation I_ := true.
Definition exm : mat := [[O_; I_; I_; O_]; [I_; I_; O_; I_]; [I_; O_; I_; I_]].
Definition exi : mat := [[O_; I_; I_]; [I_; I_; O_]; [I_; I_; I_]].
Lemma exm_wf : wfm exm.
Proof. split; [reflexivity|]. intros x H. repeat (destruct H as [<-|H]; [reflexivity|]). destruct H. Qed.
Lemma exi_wf : wfm exi.
Proof. split; [reflexivity|]. intros x H. repeat (destruct H as [<-|H]; [reflexivity|]). destruct H. Qed.

(** ** C16: gauss *)
Theorem C16_gauss : forall full bs h m, wfm m -> bs <> 0 -> exists o pcs, gauss full bs h m = Ok o /\
  shape (rows m) (cols m) (go_mat o) /\ echelon (go_mat o) pcs /\ (full = true -> reduced (go_mat o) pcs) /\
  go_rank o = length pcs /\ go_pcs o = h ++ pcs /\
  (forall ab, In ab (go_ops o) -> fst ab < rows m /\ snd ab < rows m /\ fst ab <> snd ab) /\
  go_mat o = track_x row_add (go_ops o) m /\
  exists G Gi, rect (rows m) (rows m) G /\ rect (rows m) (rows m) Gi /\
    mat_mul G Gi = mat_id (rows m) /\ mat_mul Gi G = mat_id (rows m) /\
    go_mat o = mat_mul G m /\ m = mat_mul Gi (go_mat o) /\
    (forall k x, shape (rows m) k x -> track_x row_add (go_ops o) x = mat_mul G x) /\
    (forall k y, rect k (rows m) y -> track_y col_add (go_ops o) y = mat_mul y Gi).
Proof. exact gauss_spec. Qed.
Print Assumptions C16_gauss.
Example C16_case : wfm exm /\ gauss true 2 [7] exm = Ok (mkGO [[I_; O_; I_; I_]; [O_; I_; I_; O_]; [O_; O_; O_; O_]] [(1, 0); (0, 1); (0, 2)] 2 [7; 0; 1]).
Proof. split; [apply exm_wf|vm_compute; reflexivity]. Qed.

(** ** C17: rank and the rank factorisation *)
Theorem C17_rank : forall h m, wfm m -> exists k h', rank h m = Ok (k, h') /\
  (exists L, NoDup L /\ (forall i, In i L -> i < rows m) /\ indep m L /\ length L = k) /\
  forall L, NoDup L -> (forall i, In i L -> i < rows m) -> indep m L -> length L <= k.
Proof. exact rank_largest. Qed.
Print Assumptions C17_rank.
Theorem C17_factor : forall h m, wfm m -> exists m0 m1 k h', factor h m = Ok ((m0, m1), h') /\ rank h m = Ok (k, h') /\
  rect (rows m) k m0 /\ rect k (cols m) m1 /\
  forall i j, i < rows m -> j < cols m -> get m i j = xsum (fun t => get m0 i t && get m1 t j) k.
Proof. exact factor_spec. Qed.
Print Assumptions C17_factor.
Example C17_case : rank [5; 6] exm = Ok (2, [5; 6; 0; 1]) /\ indep exm [0; 1] /\ ~ indep exm [0; 1; 2].
Proof.
  split; [vm_compute; reflexivity|]. split.
  - intros v Hv H. assert (A := H 1 ltac:(simpl; lia)). assert (B := H 0 ltac:(simpl; lia)). assert (C := H 2 ltac:(simpl; lia)). unfold rowcomb in A, B, C. cbn in A, B, C.
    intros i. destruct (v i) eqn:E; auto. exfalso. assert (X := Hv i E).
    assert (V2 : v 2 = false) by (destruct (v 2) eqn:E2; auto; apply Hv in E2; simpl in E2; destruct E2 as [|[|[]]]; discriminate).
    rewrite V2 in A, B, C. simpl in X. destruct (v 0) eqn:V0, (v 1) eqn:V1; cbn in A, B, C; try discriminate. destruct X as [<-|[<-|[]]]; congruence.
  - intros H. assert (X := H (fun i => Nat.ltb i 3)). assert (Y : (fun i => Nat.ltb i 3) 0 = false).
    + apply X; [intros i E; apply Nat.ltb_lt in E; simpl; lia|]. intros j Hj. simpl in Hj. do 4 (destruct j; [reflexivity|]). lia.
    + discriminate.
Qed.

(** ** C18: inverse *)
Theorem C18_inverse : forall h m, wfm m -> exists o h', inverse h m = Ok (o, h') /\
  match o with
  | Some N => rows m = cols m /\ rect (rows m) (rows m) N /\ mat_mul N m = mat_id (rows m) /\ mat_mul m N = mat_id (rows m)
  | None => rows m = cols m -> forall N, rect (rows m) (rows m) N -> mat_mul N m <> mat_id (rows m) /\ mat_mul m N <> mat_id (rows m)
  end.
Proof. exact inverse_spec. Qed.
Print Assumptions C18_inverse.
Example C18_case : wfm exi /\ inverse [] exi = Ok (Some [[I_; O_; I_]; [I_; I_; I_]; [O_; I_; I_]], [0; 1; 2]) /\
  inverse [] [[I_; I_]; [I_; I_]] = Ok (None, [0]).
Proof. split; [apply exi_wf|]. split; vm_compute; reflexivity. Qed.

(** ** C19: solve *)
Theorem C19_solve : forall h m b, wfm m -> rect (rows m) 1 b -> exists o h', solve h m b = Ok (o, h') /\
  match o with
  | Some x => rect (cols m) 1 x /\ forall i, i < rows m -> colprod m (fun j => get x j 0) i = get b i 0
  | None => ~ exists x : nat -> bool, forall i, i < rows m -> colprod m x i = get b i 0
  end.
Proof. exact solve_spec. Qed.
Print Assumptions C19_solve.
Example C19_case : solve [] exm [[I_]; [O_]; [I_]] = Ok (Some [[I_]; [I_]; [O_]; [O_]], [0; 1]) /\ solve [] exm [[I_]; [O_]; [O_]] = Ok (None, [0; 1]).
Proof. split; vm_compute; reflexivity. Qed.

(** ** C20: nullspace *)
Theorem C20_nullspace : forall h m, wfm m -> exists vs h', nullspace h m = Ok (vs, h') /\
  (forall v, In v vs -> length v = cols m /\ forall i, i < rows m -> colprod m (fun j => nth j v false) i = false) /\
  (forall u, (forall j, j < cols m -> comb vs u j = false) -> forall p, p < length vs -> u p = false) /\
  (forall x, (forall i, i < rows m -> colprod m x i = false) -> exists u, forall j, j < cols m -> x j = comb vs u j) /\
  exists k h'', rank h m = Ok (k, h'') /\ length vs + k = cols m.
Proof. exact nullspace_spec. Qed.
Print Assumptions C20_nullspace.
Example C20_case : nullspace [] exm = Ok ([[I_; I_; I_; O_]; [I_; O_; O_; I_]], [0; 1]).
Proof. vm_compute. reflexivity. Qed.

(** ** C21: to_cnots *)
(** [good_cnots m cn]: replayed as extract.py does, [cn] turns [m] into the
    identity, and no CNOT has equal control and target *)
Theorem C21_to_cnots : forall logbs h m, wfm m -> invertible m -> (logbs = true -> 2 <= rows m) ->
  exists cn h', to_cnots false logbs h m = Ok (cn, h') /\ good_cnots m cn.
Proof. exact to_cnots_plain. Qed.
Print Assumptions C21_to_cnots.
Theorem C21_to_cnots_optimize : forall logbs h m, wfm m -> invertible m ->
  (forall cn h', to_cnots true logbs h m = Ok (cn, h') -> good_cnots m cn) /\
  (2 <= rows m <= 499 -> exists cn h', to_cnots true logbs h m = Ok (cn, h')).
Proof. exact to_cnots_opt. Qed.
Print Assumptions C21_to_cnots_optimize.
Example C21_case : wfm exi /\ invertible exi /\ to_cnots false false [] exi = Ok ([(0, 1); (1, 0); (2, 0); (2, 1); (0, 2); (1, 2)], [0; 1; 2]) /\
  to_cnots true false [] exi = Ok ([(2, 1); (0, 1); (1, 0); (1, 2); (0, 2)], [0; 1; 2; 0; 1; 2]).
Proof.
  split; [apply exi_wf|]. split; [|split; vm_compute; reflexivity]. split; [reflexivity|].
  exists [[I_; O_; I_]; [I_; I_; I_]; [O_; I_; I_]]. split; [|reflexivity]. split; [reflexivity|].
  intros x H. repeat (destruct H as [<-|H]; [reflexivity|]). destruct H.
Qed.
(** on a 1x1 matrix the other settings raise *)
Theorem C21_single_qubit_refuted : exists m, wfm m /\ invertible m /\
  (forall h, to_cnots false true h m = Err ZeroDivisionError) /\ (forall logbs h, to_cnots true logbs h m = Err AssertionError).
Proof. exact to_cnots_refuted. Qed.
Print Assumptions C21_single_qubit_refuted.

(** ** C22: history independence *)
Theorem C22_gauss : forall full bs h1 h2 m, match gauss full bs h1 m, gauss full bs h2 m with
  | Ok a, Ok b => go_mat a = go_mat b /\ go_ops a = go_ops b /\ go_rank a = go_rank b
  | Err a, Err b => a = b
  | _, _ => False end.
Proof. exact gauss_indep. Qed.
Print Assumptions C22_gauss.
Theorem C22_rank : forall h1 h2 m, val (rank h1 m) = val (rank h2 m).
Proof. exact rank_indep. Qed.
Print Assumptions C22_rank.
Theorem C22_factor : forall h1 h2 m, val (factor h1 m) = val (factor h2 m).
Proof. exact factor_indep. Qed.
Print Assumptions C22_factor.
Theorem C22_inverse : forall h1 h2 m, val (inverse h1 m) = val (inverse h2 m).
Proof. exact inverse_indep. Qed.
Print Assumptions C22_inverse.
Theorem C22_solve : forall h1 h2 m b, val (solve h1 m b) = val (solve h2 m b).
Proof. exact solve_indep. Qed.
Print Assumptions C22_solve.
Theorem C22_nullspace : forall h1 h2 m, val (nullspace h1 m) = val (nullspace h2 m).
Proof. exact nullspace_indep. Qed.
Print Assumptions C22_nullspace.
Theorem C22_to_cnots : forall op lb h1 h2 m, val (to_cnots op lb h1 m) = val (to_cnots op lb h2 m).
Proof. exact to_cnots_indep. Qed.
Print Assumptions C22_to_cnots.
Example C22_case : inverse [0; 5; 2] exi = Ok (Some [[I_; O_; I_]; [I_; I_; I_]; [O_; I_; I_]], [0; 5; 2; 0; 1; 2]).
Proof. vm_compute. reflexivity. Qed.

(** ** C23: permutation_as_swaps *)
Theorem C23_permutation_as_swaps : forall p, perm_dict p -> exists sw, permutation_as_swaps p = Ok sw /\
  (forall ij, In ij sw -> fst ij < snd ij < length p) /\ (p <> [] -> length sw < length p) /\
  forall A (d : A) a, length a = length p -> forall i j, In (i, j) p -> nth j (run_swaps d sw a) d = nth i a d.
Proof. exact swaps_ok. Qed.
Print Assumptions C23_permutation_as_swaps.
Theorem C23_prepended : forall p sw, perm_dict p -> permutation_as_swaps p = Ok sw -> forall A (d : A) a, length a = length p ->
  forall i j, In (i, j) p -> nth i (run_swaps d (rev sw) a) d = nth j a d.
Proof. exact swaps_rev. Qed.
Print Assumptions C23_prepended.
Example C23_case : perm_dict [(2, 0); (0, 1); (1, 2); (3, 3)] /\ permutation_as_swaps [(2, 0); (0, 1); (1, 2); (3, 3)] = Ok [(0, 2); (1, 2)].
Proof.
  split; [|vm_compute; reflexivity]. split; apply NoDup_Permutation; try apply seq_NoDup; simpl; try (repeat constructor; simpl; lia); intros x; lia.
Qed.

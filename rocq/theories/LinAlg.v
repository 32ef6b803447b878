(** Linear algebra over Z2 on the matrices of LinModel: products, the effect of
    row and column operations on them, and rank. *)
From Coq Require Import List Bool Arith NArith Lia.
From Verif Require Import Base LinModel LinProofs.
Import ListNotations.

(** ** Sums modulo 2 *)
Lemma xsum_ext : forall f g n, (forall k, k < n -> f k = g k) -> xsum f n = xsum g n.
Proof. intros f g n H. induction n as [|n IH]; simpl; auto. rewrite IH, H; auto. Qed.
Lemma xsum_false : forall n, xsum (fun _ => false) n = false.
Proof. induction n; simpl; auto. rewrite IHn. reflexivity. Qed.
Lemma xsum_zero : forall f n, (forall k, k < n -> f k = false) -> xsum f n = false.
Proof. intros f n H. rewrite (xsum_ext f (fun _ => false)); auto. apply xsum_false. Qed.
Lemma xsum_xor : forall f g n, xsum (fun k => xorb (f k) (g k)) n = xorb (xsum f n) (xsum g n).
Proof. intros f g n. induction n as [|n IH]; simpl; auto. rewrite IH. destruct (xsum f n), (xsum g n), (f n), (g n); reflexivity. Qed.
Lemma xsum_and : forall f b n, xsum (fun k => f k && b) n = xsum f n && b.
Proof. intros f b n. induction n as [|n IH]; simpl; auto. rewrite IH. destruct (xsum f n), (f n), b; reflexivity. Qed.
Lemma xsum_andl : forall f b n, xsum (fun k => b && f k) n = b && xsum f n.
Proof. intros f b n. rewrite (xsum_ext _ (fun k => f k && b)); [|intros; apply andb_comm]. rewrite xsum_and. apply andb_comm. Qed.
Lemma xsum_delta : forall a v n, xsum (fun k => Nat.eqb k a && v k) n = Nat.ltb a n && v a.
Proof.
  intros a v n. induction n as [|n IH]; [reflexivity|]. cbn [xsum]. rewrite IH. destruct (Nat.eqb_spec n a) as [->|N].
  - rewrite (proj2 (Nat.ltb_ge a a)) by lia. rewrite (proj2 (Nat.ltb_lt a (S a))) by lia. destruct (v a); reflexivity.
  - destruct (Nat.ltb_spec a n), (Nat.ltb_spec a (S n)); try lia; destruct (v a); reflexivity.
Qed.
Lemma xsum_one : forall f n a, a < n -> (forall k, k < n -> k <> a -> f k = false) -> xsum f n = f a.
Proof.
  intros f n a Ha H. rewrite (xsum_ext f (fun k => Nat.eqb k a && f k)).
  - rewrite xsum_delta. rewrite (proj2 (Nat.ltb_lt a n)) by auto. reflexivity.
  - intros k Hk. destruct (Nat.eqb_spec k a); auto.
Qed.
Lemma xsum_swap : forall f n m, xsum (fun i => xsum (fun j => f i j) m) n = xsum (fun j => xsum (fun i => f i j) n) m.
Proof.
  intros f n m. induction n as [|n IH]; simpl; [symmetry; apply xsum_false|]. rewrite IH. symmetry. apply xsum_xor.
Qed.
Lemma xsum_shift : forall f n, xsum f (S n) = xorb (f 0) (xsum (fun k => f (S k)) n).
Proof. intros f n. induction n as [|n IH]; [cbn; destruct (f 0); reflexivity|]. cbn [xsum] in *. rewrite IH. destruct (f 0), (xsum (fun k => f (S k)) n), (f (S n)); reflexivity. Qed.
Lemma xsum_trunc : forall f k n, k <= n -> (forall i, k <= i < n -> f i = false) -> xsum f n = xsum f k.
Proof.
  intros f k n Hk H. induction n as [|n IH]; [replace k with 0 by lia; reflexivity|].
  destruct (Nat.eq_dec k (S n)) as [->|]; auto. cbn [xsum]. rewrite H by lia. rewrite IH; [destruct (xsum f k); reflexivity|lia|intros; apply H; lia].
Qed.

Lemma nth_map_in : forall A B (f : A -> B) l i d d', i < length l -> nth i (map f l) d' = f (nth i l d).
Proof. intros A B f l i d d' H. rewrite (nth_indep _ d' (f d)) by (rewrite map_length; auto). apply map_nth. Qed.

(** ** Products *)
Definition shape (r c : nat) (m : mat) : Prop := rect r c m /\ cols m = c.
Lemma rect_shape : forall r c m, rect r c m -> r <> 0 -> shape r c m.
Proof. intros r c m R H. split; auto. destruct m as [|x m]; [destruct R; simpl in *; congruence|]. apply R. left. reflexivity. Qed.
Lemma wfm_shape : forall m, wfm m -> shape (rows m) (cols m) m.
Proof. intros m W. split; auto. Qed.
Lemma map_seq_rect : forall r c (f : nat -> nat -> bool), rect r c (map (fun i => map (f i) (seq 0 c)) (seq 0 r)).
Proof.
  intros r c f. split; [rewrite map_length, seq_length; auto|]. intros x Hx. apply in_map_iff in Hx. destruct Hx as [i [<- _]].
  rewrite map_length, seq_length. reflexivity.
Qed.
Lemma nth_map_seq : forall A (f : nat -> A) n i d, i < n -> nth i (map f (seq 0 n)) d = f i.
Proof. intros A f n i d H. rewrite nth_indep with (d' := f 0) by (rewrite map_length, seq_length; auto). rewrite map_nth, seq_nth; auto. Qed.
Lemma get_map_seq : forall r c (f : nat -> nat -> bool) i j, i < r -> j < c -> get (map (fun i => map (f i) (seq 0 c)) (seq 0 r)) i j = f i j.
Proof. intros r c f i j Hi Hj. unfold get, row. rewrite (nth_map_seq _ (fun i => map (f i) (seq 0 c))), nth_map_seq; auto. Qed.
Lemma map_seq_shape : forall r c (f : nat -> nat -> bool), r <> 0 \/ c = 0 -> shape r c (map (fun i => map (f i) (seq 0 c)) (seq 0 r)).
Proof.
  intros r c f H. destruct r as [|r]; [destruct H as [H| ->]; [congruence|]; split; [apply map_seq_rect|reflexivity]|].
  apply rect_shape; auto. apply map_seq_rect.
Qed.
Lemma id_shape : forall n, shape n n (mat_id n).
Proof. intros n. apply map_seq_shape. lia. Qed.
Lemma id_get : forall n i j, i < n -> j < n -> get (mat_id n) i j = Nat.eqb i j.
Proof. intros. unfold mat_id. rewrite get_map_seq; auto. Qed.
Lemma mul_rect : forall r k c a b, rect r k a -> shape k c b -> rect r c (mat_mul a b).
Proof. intros r k c a b [La _] [_ Hc]. unfold mat_mul. rewrite La, Hc. apply map_seq_rect. Qed.
Lemma mul_get : forall r k c a b i j, rect r k a -> shape k c b -> i < r -> j < c ->
  get (mat_mul a b) i j = xsum (fun t => get a i t && get b t j) k.
Proof. intros r k c a b i j [La _] [[Lb _] Hc] Hi Hj. unfold mat_mul. rewrite La, Hc, Lb. apply (get_map_seq r c (fun i j => xsum (fun t => get a i t && get b t j) k)); auto. Qed.
Lemma row_add_shape : forall r c a b m, shape r c m -> a < r -> b < r -> shape r c (row_add a b m).
Proof. intros r c a b m [R H] Ha Hb. apply rect_shape; [apply row_add_rect; auto|lia]. Qed.
Lemma track_shape : forall r c ops m, shape r c m -> Forall (opok r) ops -> shape r c (track_x row_add ops m).
Proof.
  intros r c ops. induction ops as [|[a b] ops IH]; intros m S F; auto. inversion F as [|? ? [A [B N]] F']; subst. simpl in *.
  apply IH; auto. apply row_add_shape; auto.
Qed.
Lemma mul_row_add : forall r k c a b A B, rect r k A -> shape k c B -> a < r -> b < r ->
  row_add a b (mat_mul A B) = mat_mul (row_add a b A) B.
Proof.
  intros r k c a b A B HA HB Ha Hb. assert (HM := mul_rect r k c A B HA HB).
  apply (mat_ext r c); [apply row_add_rect; auto|apply (mul_rect r k c); auto; apply row_add_rect; auto|].
  intros i j Hi Hj. rewrite (get_row_add r c) by auto. rewrite (mul_get r k c (row_add a b A)) by (auto; apply row_add_rect; auto).
  rewrite (xsum_ext _ (fun t => if Nat.eqb i b then xorb (get A b t && get B t j) (get A a t && get B t j) else get A i t && get B t j)).
  2: { intros t Ht. rewrite (get_row_add r k) by auto. destruct (Nat.eqb i b); auto. destruct (get A b t), (get A a t), (get B t j); reflexivity. }
  destruct (Nat.eqb_spec i b) as [->|N]; [rewrite xsum_xor|]; rewrite !(mul_get r k c) by auto; reflexivity.
Qed.
Lemma track_mul : forall r k c ops A B, rect r k A -> shape k c B -> Forall (opok r) ops ->
  track_x row_add ops (mat_mul A B) = mat_mul (track_x row_add ops A) B.
Proof.
  intros r k c ops. induction ops as [|[a b] ops IH]; intros A B HA HB F; auto. inversion F as [|? ? [Ha [Hb N]] F']; subst. simpl in *.
  rewrite (mul_row_add r k c) by auto. apply IH; auto. apply row_add_rect; auto.
Qed.
Lemma id_mul : forall r c M, shape r c M -> mat_mul (mat_id r) M = M.
Proof.
  intros r c M S. apply (mat_ext r c); [apply (mul_rect r r c); auto; apply id_shape|apply S|].
  intros i j Hi Hj. rewrite (mul_get r r c) by (auto; apply id_shape). rewrite (xsum_one _ r i Hi).
  - rewrite id_get, Nat.eqb_refl; auto.
  - intros k Hk N. rewrite id_get by auto. destruct (Nat.eqb_spec i k); [congruence|reflexivity].
Qed.
Lemma mul_id : forall r c M, rect r c M -> mat_mul M (mat_id c) = M.
Proof.
  intros r c M S. apply (mat_ext r c); [apply (mul_rect r c c); auto; apply id_shape|apply S|].
  intros i j Hi Hj. rewrite (mul_get r c c) by (auto; apply id_shape). rewrite (xsum_one _ c j Hj).
  - rewrite id_get, Nat.eqb_refl, andb_true_r; auto.
  - intros k Hk N. rewrite id_get by auto. destruct (Nat.eqb_spec k j); [congruence|]. apply andb_false_r.
Qed.
Lemma col_add_rect : forall r c a b Y, rect r c Y -> rect r c (col_add a b Y).
Proof.
  intros r c a b Y [L R]. split; [unfold col_add; rewrite map_length; auto|]. intros x Hx. apply in_map_iff in Hx. destruct Hx as [d [<- Hd]].
  destruct (nth a d false); [rewrite upd_length|]; auto.
Qed.
Lemma get_col_add : forall r c a b Y i j, rect r c Y -> b < c -> get (col_add a b Y) i j = if Nat.eqb j b then xorb (get Y i b) (get Y i a) else get Y i j.
Proof.
  intros r c a b Y i j R Hb. destruct (Nat.ltb_spec i r) as [Hi|Hi].
  - unfold get at 1, row, col_add. assert (L : i < length Y) by (rewrite (proj1 R); auto).
    rewrite (nth_map_in _ _ _ Y i [] []) by auto. fold (row Y i). destruct (nth a (row Y i) false) eqn:E.
    + rewrite nth_upd. rewrite (rect_row r c) by auto. rewrite (proj2 (Nat.ltb_lt b c)) by auto. rewrite andb_true_r.
      destruct (Nat.eqb_spec j b); [|reflexivity]. unfold get. rewrite E. destruct (nth b (row Y i) false); reflexivity.
    + destruct (Nat.eqb_spec j b) as [->|]; [|reflexivity]. unfold get. rewrite E. destruct (nth b (row Y i) false); reflexivity.
  - rewrite !(get_out_r r c) by (auto using col_add_rect). destruct (Nat.eqb j b); reflexivity.
Qed.
(** a column operation on the left factor is the row operation on the right one *)
Lemma col_row : forall n r c a b Y X, rect n r Y -> shape r c X -> a < r -> b < r -> a <> b ->
  mat_mul (col_add b a Y) X = mat_mul Y (row_add a b X).
Proof.
  intros n r c a b Y X HY HX Ha Hb N.
  apply (mat_ext n c); [apply (mul_rect n r c); auto; apply col_add_rect; auto|apply (mul_rect n r c); auto; apply row_add_shape; auto|].
  intros i j Hi Hj. rewrite !(mul_get n r c) by (auto using col_add_rect, row_add_shape).
  transitivity (xorb (xsum (fun t => get Y i t && get X t j) r) (xsum (fun t => Nat.eqb t a && (get Y i b && get X a j)) r)).
  - rewrite <- xsum_xor. apply xsum_ext. intros t Ht. rewrite (get_col_add n r) by auto. destruct (Nat.eqb_spec t a) as [->|]; simpl; [|rewrite xorb_false_r; reflexivity].
    destruct (get Y i a), (get Y i b), (get X a j); reflexivity.
  - rewrite (xsum_delta a (fun _ => get Y i b && get X a j)). rewrite (proj2 (Nat.ltb_lt a r)) by auto.
    rewrite (xsum_ext (fun t => get Y i t && get (row_add a b X) t j) (fun t => xorb (get Y i t && get X t j) (Nat.eqb t b && (get Y i b && get X a j)))).
    + rewrite xsum_xor, (xsum_delta b (fun _ => get Y i b && get X a j)). rewrite (proj2 (Nat.ltb_lt b r)) by auto. reflexivity.
    + intros t Ht. rewrite (get_row_add r c) by (auto; apply HX). destruct (Nat.eqb_spec t b) as [->|]; simpl; [|rewrite xorb_false_r; reflexivity].
      destruct (get Y i b), (get X a j), (get X b j); reflexivity.
Qed.
Lemma row_add_invol : forall r c a b X, rect r c X -> a < r -> b < r -> a <> b -> row_add a b (row_add a b X) = X.
Proof.
  intros r c a b X R Ha Hb N. assert (R1 := row_add_rect r c a b X R Ha Hb). apply (mat_ext r c); auto; [apply row_add_rect; auto|].
  intros i j Hi Hj. rewrite !(get_row_add r c) by auto. destruct (Nat.eqb_spec i b) as [->|]; auto.
  rewrite Nat.eqb_refl. destruct (Nat.eqb_spec a b); [congruence|]. destruct (get X b j), (get X a j); reflexivity.
Qed.
Lemma track_rect : forall r c ops m, rect r c m -> Forall (opok r) ops -> rect r c (track_x row_add ops m).
Proof.
  intros r c ops. induction ops as [|[a b] ops IH]; intros m S F; auto. inversion F as [|? ? [A [B N]] F']; subst. simpl in *.
  apply IH; auto. apply row_add_rect; auto.
Qed.
Lemma Forall_rev' : forall A (P : A -> Prop) l, Forall P l -> Forall P (rev l).
Proof. intros A P l H. rewrite Forall_forall in *. intros x Hx. apply H. apply in_rev. exact Hx. Qed.
Lemma track_rev : forall r c ops X, rect r c X -> Forall (opok r) ops -> track_x row_add (rev ops) (track_x row_add ops X) = X.
Proof.
  intros r c ops. induction ops as [|[a b] ops IH]; intros X R F; auto. inversion F as [|? ? [A [B N]] F']; subst. simpl in *.
  change (track_x row_add (rev ops ++ [(a,b)]) (track_x row_add ops (row_add a b X)) = X). rewrite track_x_app, IH; auto.
  - simpl. apply (row_add_invol r c); auto.
  - apply row_add_rect; auto.
Qed.
Lemma track_rev' : forall r c ops X, rect r c X -> Forall (opok r) ops -> track_x row_add ops (track_x row_add (rev ops) X) = X.
Proof. intros r c ops X R F. rewrite <- (rev_involutive ops) at 1. apply (track_rev r c); auto. apply Forall_rev'. auto. Qed.
Lemma track_y_mul : forall n r c ops Y X, rect n r Y -> shape r c X -> Forall (opok r) ops ->
  mat_mul (track_y col_add ops Y) X = mat_mul Y (track_x row_add (rev ops) X).
Proof.
  intros n r c ops. induction ops as [|[a b] ops IH]; intros Y X HY HX F; auto. inversion F as [|? ? [A [B N]] F']; subst. simpl in *.
  change (mat_mul (track_y col_add ops (col_add b a Y)) X = mat_mul Y (track_x row_add (rev ops ++ [(a,b)]) X)). rewrite IH by (auto using col_add_rect). rewrite track_x_app. apply (col_row n r c); auto.
  apply track_shape; auto. apply Forall_rev'. auto.
Qed.
Lemma track_y_rect : forall n r ops Y, rect n r Y -> rect n r (track_y col_add ops Y).
Proof. intros n r ops. induction ops as [|[a b] ops IH]; intros Y R; auto. simpl. apply IH. apply col_add_rect. auto. Qed.
(** the matrix of the row operations and its inverse *)
Lemma ops_inverse : forall r ops, Forall (opok r) ops ->
  let g := track_x row_add ops (mat_id r) in let gi := track_y col_add ops (mat_id r) in
  mat_mul gi g = mat_id r /\ mat_mul g gi = mat_id r.
Proof.
  intros r ops F g gi. assert (I := id_shape r).
  assert (Sg : shape r r g) by (apply track_shape; auto). assert (Rgi : rect r r gi) by (apply track_y_rect; apply I).
  assert (E : gi = track_x row_add (rev ops) (mat_id r)).
  { rewrite <- (mul_id r r gi Rgi). unfold gi. rewrite (track_y_mul r r r) by (auto; apply I). apply (id_mul r r). apply track_shape; auto. apply Forall_rev'; auto. }
  split.
  - unfold gi. rewrite (track_y_mul r r r) by (auto; apply I). unfold g. rewrite (track_rev r r) by (auto; apply I). apply (id_mul r r). auto.
  - assert (Sgi : shape r r gi) by (rewrite E; apply track_shape; auto; apply Forall_rev'; auto).
    unfold g. rewrite <- (track_mul r r r) by (auto; apply I). rewrite (id_mul r r) by auto. rewrite E. apply (track_rev' r r); auto. apply I.
Qed.
Lemma ops_apply : forall r c ops m, shape r c m -> Forall (opok r) ops -> track_x row_add ops m = mat_mul (track_x row_add ops (mat_id r)) m.
Proof. intros r c ops m S F. rewrite <- (track_mul r r c) by (auto; apply id_shape). rewrite (id_mul r c); auto. Qed.
Lemma ops_undo : forall r c ops m, shape r c m -> Forall (opok r) ops -> mat_mul (track_y col_add ops (mat_id r)) (track_x row_add ops m) = m.
Proof.
  intros r c ops m S F. rewrite (track_y_mul r r c); auto; [|apply id_shape|apply track_shape; auto].
  rewrite (track_rev r c) by (auto; apply S). apply (id_mul r c); auto.
Qed.

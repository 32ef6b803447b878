(** Exceptions as values, and Python dictionaries with integer keys as
    insertion-ordered association lists. *)
From Coq Require Import List Arith Lia Bool.
Import ListNotations.

(** Python exceptions that the modelled code can raise. *)
Inductive exn := KeyError | ValueError | TypeError | AssertionError | IndexError | ZeroDivisionError | AttributeError | NotImplementedError | StopIteration | OutOfFuel.

Inductive res (A : Type) := Ok (a : A) | Err (e : exn).
Arguments Ok {A} a.
Arguments Err {A} e.

Definition bind {A B} (r : res A) (f : A -> res B) : res B :=
  match r with Ok a => f a | Err e => Err e end.
Notation "'let*' x ':=' r 'in' k" := (bind r (fun x => k))
  (at level 200, x pattern, r at level 100, k at level 200, right associativity).

Lemma bind_ok : forall A B (r : res A) (f : A -> res B) b,
  bind r f = Ok b -> exists a, r = Ok a /\ f a = Ok b.
Proof. intros A B [a|e] f b H; simpl in H; [eauto|discriminate]. Qed.

Ltac inv_bind H :=
  let a := fresh "a" in let E := fresh "E" in
  apply bind_ok in H; destruct H as [a [E H]].

Fixpoint foldM {A B} (f : A -> B -> res A) (l : list B) (a : A) : res A :=
  match l with [] => Ok a | b :: l' => let* a' := f a b in foldM f l' a' end.

Definition of_opt {A} (e : exn) (o : option A) : res A :=
  match o with Some a => Ok a | None => Err e end.

(** ** dict *)
Definition dict (V : Type) := list (nat * V).

Section Dict.
  Context {V : Type}.

  Fixpoint dget (k : nat) (d : dict V) : option V :=
    match d with
    | [] => None
    | (k', v) :: d' => if Nat.eqb k k' then Some v else dget k d'
    end.

  (** [d[k] = v]: keeps the position of an existing key, else appends. *)
  Fixpoint dset (k : nat) (v : V) (d : dict V) : dict V :=
    match d with
    | [] => [(k, v)]
    | (k', v') :: d' => if Nat.eqb k k' then (k', v) :: d' else (k', v') :: dset k v d'
    end.

  (** [del d[k]] (absent keys are handled by the callers). *)
  Fixpoint ddel (k : nat) (d : dict V) : dict V :=
    match d with
    | [] => []
    | (k', v') :: d' => if Nat.eqb k k' then d' else (k', v') :: ddel k d'
    end.

  Definition dkeys (d : dict V) : list nat := map fst d.
  Definition dmem (k : nat) (d : dict V) : bool :=
    match dget k d with Some _ => true | None => false end.

  Lemma dget_dset : forall k k' v d,
    dget k (dset k' v d) = if Nat.eqb k k' then Some v else dget k d.
  Proof.
    induction d as [|[a b] d IH]; simpl.
    - destruct (Nat.eqb_spec k k'); reflexivity.
    - destruct (Nat.eqb_spec k' a); simpl.
      + subst. destruct (Nat.eqb_spec k a); reflexivity.
      + destruct (Nat.eqb_spec k a); subst.
        * destruct (Nat.eqb_spec a k'); [congruence|reflexivity].
        * exact IH.
  Qed.

  Lemma dget_dset_eq : forall k v d, dget k (dset k v d) = Some v.
  Proof. intros. rewrite dget_dset, Nat.eqb_refl. reflexivity. Qed.
  Lemma dget_dset_neq : forall k k' v d, k <> k' -> dget k (dset k' v d) = dget k d.
  Proof. intros. rewrite dget_dset. apply Nat.eqb_neq in H. rewrite H. reflexivity. Qed.

  Lemma dget_in : forall k v d, dget k d = Some v -> In (k, v) d.
  Proof.
    induction d as [|[a b] d IH]; simpl; intros; [discriminate|].
    destruct (Nat.eqb_spec k a); subst; [left; congruence|right; auto].
  Qed.

  Lemma dget_keys : forall k d, (exists v, dget k d = Some v) <-> In k (dkeys d).
  Proof.
    induction d as [|[a b] d IH]; simpl.
    - split; [intros [v H]; discriminate|tauto].
    - destruct (Nat.eqb_spec k a).
      + subst. split; eauto.
      + rewrite IH. split; intros; [tauto|]. destruct H; [congruence|auto].
  Qed.
  Lemma dget_none : forall k d, dget k d = None <-> ~ In k (dkeys d).
  Proof.
    intros. rewrite <- dget_keys. destruct (dget k d); split; intros; try congruence; eauto.
    - exfalso. apply H. eauto.
    - intros [v E]. discriminate.
  Qed.
  Lemma dget_some_key : forall k d v, dget k d = Some v -> In k (dkeys d).
  Proof. intros. apply dget_keys. eauto. Qed.
  Lemma dmem_keys : forall k d, dmem k d = true <-> In k (dkeys d).
  Proof.
    intros. rewrite <- dget_keys. unfold dmem. destruct (dget k d); split; intros; eauto; try discriminate.
    destruct H; discriminate.
  Qed.

  Lemma in_dget : forall k v d, NoDup (dkeys d) -> In (k, v) d -> dget k d = Some v.
  Proof.
    induction d as [|[a b] d IH]; simpl; intros; [tauto|].
    inversion H; subst. destruct H0 as [E|E].
    - inversion E; subst. rewrite Nat.eqb_refl. reflexivity.
    - destruct (Nat.eqb_spec k a).
      + subst. exfalso. apply H3. change a with (fst (a, v)). apply in_map. exact E.
      + auto.
  Qed.

  Lemma dkeys_dset_in : forall k v d, In k (dkeys d) -> dkeys (dset k v d) = dkeys d.
  Proof.
    induction d as [|[a b] d IH]; simpl; intros; [tauto|].
    destruct (Nat.eqb_spec k a); simpl; [reflexivity|].
    f_equal. apply IH. destruct H; [congruence|auto].
  Qed.
  Lemma dkeys_dset_notin : forall k v d, ~ In k (dkeys d) -> dkeys (dset k v d) = dkeys d ++ [k].
  Proof.
    induction d as [|[a b] d IH]; simpl; intros; [reflexivity|].
    destruct (Nat.eqb_spec k a); [exfalso; auto|]. simpl. f_equal. apply IH. tauto.
  Qed.
  Lemma in_dkeys_dset : forall k k' v d, In k (dkeys (dset k' v d)) <-> k = k' \/ In k (dkeys d).
  Proof.
    intros. rewrite <- !dget_keys, dget_dset. destruct (Nat.eqb_spec k k'); split; intros; auto; eauto; try tauto.
  Qed.

  Lemma NoDup_snoc : forall (A : Type) (l : list A) a, NoDup l -> ~ In a l -> NoDup (l ++ [a]).
  Proof.
    induction l; simpl; intros.
    - constructor; [simpl; tauto|constructor].
    - inversion H; subst. constructor.
      + rewrite in_app_iff. simpl. intros [E|[E|[]]]; [auto|subst; apply H0; auto].
      + apply IHl; auto.
  Qed.
  Lemma nodup_dset : forall k v d, NoDup (dkeys d) -> NoDup (dkeys (dset k v d)).
  Proof.
    intros. destruct (in_dec Nat.eq_dec k (dkeys d)).
    - rewrite dkeys_dset_in by auto. auto.
    - rewrite dkeys_dset_notin by auto. apply NoDup_snoc; auto.
  Qed.

  Lemma in_dkeys_ddel_incl : forall k k' d, In k (dkeys (ddel k' d)) -> In k (dkeys d).
  Proof.
    induction d as [|[a b] d IH]; simpl; intros; auto.
    destruct (Nat.eqb_spec k' a); simpl in *; [auto|]. destruct H; auto.
  Qed.
  Lemma nodup_ddel : forall k d, NoDup (dkeys d) -> NoDup (dkeys (ddel k d)).
  Proof.
    induction d as [|[a b] d IH]; simpl; intros; auto.
    inversion H; subst. destruct (Nat.eqb_spec k a); auto.
    simpl. constructor; auto. intro. apply in_dkeys_ddel_incl in H0. auto.
  Qed.
  Lemma dget_ddel : forall k k' d, NoDup (dkeys d) ->
    dget k (ddel k' d) = if Nat.eqb k k' then None else dget k d.
  Proof.
    induction d as [|[a b] d IH]; simpl; intros.
    - destruct (Nat.eqb k k'); reflexivity.
    - inversion H; subst. destruct (Nat.eqb_spec k' a).
      + subst. destruct (Nat.eqb_spec k a).
        * subst. apply dget_none. auto.
        * reflexivity.
      + simpl. destruct (Nat.eqb_spec k a).
        * subst. destruct (Nat.eqb_spec a k'); [congruence|reflexivity].
        * apply IH; auto.
  Qed.
  Lemma dget_ddel_neq : forall k k' d, k <> k' -> dget k (ddel k' d) = dget k d.
  Proof.
    induction d as [|[a b] d IH]; simpl; intros; auto.
    destruct (Nat.eqb_spec k' a).
    - subst. destruct (Nat.eqb_spec k a); [congruence|reflexivity].
    - simpl. rewrite IH; auto.
  Qed.
  Lemma ddel_notin : forall k d, ~ In k (dkeys d) -> ddel k d = d.
  Proof.
    induction d as [|[a b] d IH]; simpl; intros; auto.
    destruct (Nat.eqb_spec k a); [subst; tauto|]. rewrite IH; tauto.
  Qed.
  Lemma dkeys_ddel : forall k d, NoDup (dkeys d) ->
    dkeys (ddel k d) = filter (fun x => negb (Nat.eqb k x)) (dkeys d).
  Proof.
    induction d as [|[a b] d IH]; simpl; intros; auto.
    inversion H; subst. destruct (Nat.eqb_spec k a); simpl.
    - subst. clear -H2. induction d as [|[a' b'] d IH]; simpl in *; auto.
      destruct (Nat.eqb_spec a a'); [subst; tauto|]. simpl. f_equal. apply IH. tauto.
    - f_equal. auto.
  Qed.
End Dict.

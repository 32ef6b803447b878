(** Executing the simplifiers on concrete diagrams with one fixed schedule
    (candidates in store order): used for the examples only. *)
From Coq Require Import ZArith QArith Qcanon List Bool Arith Permutation.
From Verif Require Import CNum Base ScalarModel GraphModel RulesModel SimpModel.
Import ListNotations.
Open Scope nat_scope.

Section Exec.
  Context {Ch M : Type} (okc : graph -> Ch -> Prop) (pick : graph -> Ch)
    (mt : Ch -> graph -> res (list M * graph)) (rw : Ch -> list M -> graph -> res rwout).
  Hypothesis pick_ok : forall g, okc g (pick g).
  Fixpoint simp_exec (fuel i : nat) (g : graph) : option (nat * graph) :=
    match fuel with
    | O => None
    | S fuel =>
      match simp_once (mt (pick g)) (rw (pick g)) g with
      | Ok (true, g') => simp_exec fuel (i + 1) g'
      | Ok (false, g') => Some (i, g')
      | Err _ => None
      end
    end.
  Lemma simp_exec_run : forall fuel i g n g', simp_exec fuel i g = Some (n, g') ->
    loop_run (fun i => do b <- pchoose okc (fun c => simp_once (mt c) (rw c)) ;; pret (if b then i + 1 else i, b)) i g (Ok (n, g')).
  Proof.
    induction fuel as [|fuel IH]; intros i g n g' H; simpl in H; [discriminate|].
    destruct (simp_once (mt (pick g)) (rw (pick g)) g) as [[[] g1]|e] eqn:E; [| |discriminate].
    - eapply LR_go; [|apply IH; exact H]. right. exists true, g1. split; [|reflexivity]. exists (pick g). auto.
    - injection H as <- <-. apply LR_stop. right. exists false, g1. split; [|reflexivity]. exists (pick g). auto.
  Qed.
End Exec.

Definition id_so (l : list nat) : list nat := l.
Lemma id_so_ok : set_order id_so. Proof. intros l. apply Permutation_refl. Qed.
Definition exec_spider fuel g := simp_exec edges (fun c g => Ok (match_spider_parallel c None g, g)) (fun _ => spider) fuel 0 g.
Definition exec_id fuel g := simp_exec vertices (fun c g => Ok (match_ids_parallel c None g, g)) (fun _ => remove_ids) fuel 0 g.
Definition exec_lcomp fuel g := simp_exec vertices (fun c g => Ok (match_lcomp_parallel c None g, g)) (fun _ => lcomp) fuel 0 g.
Definition exec_pivot fuel g := simp_exec (fun g => (edges g, id_so)) (fun c g => Ok (match_pivot_parallel (fst c) None g, g)) (fun c => pivot (snd c)) fuel 0 g.
Definition exec_pivot_gadget fuel g := simp_exec (fun g => (edges g, id_so)) (fun c g => match_pivot_gadget (fst c) None g) (fun c => pivot (snd c)) fuel 0 g.
Definition exec_pivot_boundary fuel g := simp_exec (fun g => (vertices g, id_so)) (fun c g => match_pivot_boundary (fst c) None g) (fun c => pivot (snd c)) fuel 0 g.
Definition exec_gadget fuel g := simp_exec vertices (fun c g => match_phase_gadgets c g) (fun _ => merge_phase_gadgets) fuel 0 g.
Definition exec_supp fuel g := simp_exec (fun g => (vertices g, id_so)) (fun c g => Ok (match_supplementarity (snd c) (fst c) g, g)) (fun _ => apply_supplementarity) fuel 0 g.
Definition exec_copy fuel g := simp_exec vertices (fun c g => Ok (match_copy c g, g)) (fun _ => apply_copy) fuel 0 g.

Lemma exec_spider_run : forall f g n g', exec_spider f g = Some (n, g') -> run (spider_simp AllC) g (Ok (n, g')).
Proof. intros. eapply simp_exec_run; [|eassumption]. intros; apply Permutation_refl. Qed.
Lemma exec_id_run : forall f g n g', exec_id f g = Some (n, g') -> run (id_simp AllC) g (Ok (n, g')).
Proof. intros. eapply simp_exec_run; [|eassumption]. intros; apply Permutation_refl. Qed.
Lemma exec_lcomp_run : forall f g n g', exec_lcomp f g = Some (n, g') -> run (lcomp_simp AllC) g (Ok (n, g')).
Proof. intros. eapply simp_exec_run; [|eassumption]. intros; apply Permutation_refl. Qed.
Lemma exec_pivot_run : forall f g n g', exec_pivot f g = Some (n, g') -> run (pivot_simp AllC) g (Ok (n, g')).
Proof. intros. eapply simp_exec_run; [|eassumption]. intros; split; [apply Permutation_refl|exact id_so_ok]. Qed.
Lemma exec_pivot_gadget_run : forall f g n g', exec_pivot_gadget f g = Some (n, g') -> run (pivot_gadget_simp AllC) g (Ok (n, g')).
Proof. intros. eapply simp_exec_run; [|eassumption]. intros; split; [apply Permutation_refl|exact id_so_ok]. Qed.
Lemma exec_pivot_boundary_run : forall f g n g', exec_pivot_boundary f g = Some (n, g') -> run (pivot_boundary_simp AllC) g (Ok (n, g')).
Proof. intros. eapply simp_exec_run; [|eassumption]. intros; split; [apply Permutation_refl|exact id_so_ok]. Qed.
Lemma exec_gadget_run : forall f g n g', exec_gadget f g = Some (n, g') -> run (gadget_simp AllC) g (Ok (n, g')).
Proof. intros. eapply simp_exec_run; [|eassumption]. intros; apply Permutation_refl. Qed.
Lemma exec_supp_run : forall f g n g', exec_supp f g = Some (n, g') -> run supplementarity_simp g (Ok (n, g')).
Proof. intros. eapply simp_exec_run; [|eassumption]. intros; split; [apply Permutation_refl|exact id_so_ok]. Qed.
Lemma exec_copy_run : forall f g n g', exec_copy f g = Some (n, g') -> run copy_simp g (Ok (n, g')).
Proof. intros. eapply simp_exec_run; [|eassumption]. intros; apply Permutation_refl. Qed.

(** building concrete diagrams *)
Definition mkgraph (vs : list (vtype * Qc)) (es : list (nat * nat * etype)) (ins outs : list nat) : graph :=
  let g := fold_left (fun g tp => fst (add_vertex (fst tp) 0%Qc 0%Qc (Some (snd tp)) g)) vs empty_graph in
  let g := fold_left (fun g e => match add_edge (fst (fst e)) (snd (fst e)) (snd e) g with Ok g => g | Err _ => g end) es g in
  set_outputs outs (set_inputs ins g).

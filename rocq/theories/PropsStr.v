(** Property theorems about phases printed as strings. *)
From Coq Require Import ZArith NArith QArith Qcanon List Bool.
From Verif Require Import CNum Base ScalarModel GraphModel StrModel StrProofs.
Import ListNotations.

(** ** C43 *)
(** Every rational phase with denominator at most 256, printed for a spider, parses back
    to exactly itself, whatever the approximation used for larger denominators. *)
Theorem C43_spider_phase : forall lim a t, (qden a <= 256)%Z -> t <> HBOX -> string_to_phase (phase_to_s lim a t) = Ok (Some a).
Proof. exact phase_roundtrip. Qed.
Print Assumptions C43_spider_phase.
(** For H-boxes the phase 1 is lost: it is printed as the empty string, read as 0. *)
Theorem C43_hbox_phase : forall lim a, (qden a <= 256)%Z -> string_to_phase (phase_to_s lim a HBOX) = Ok (Some (if qeqb a 1%Qc then 0%Qc else a)).
Proof. exact phase_roundtrip_hbox. Qed.
Print Assumptions C43_hbox_phase.
Theorem C43_hbox_refuted : exists a, (qden a <= 256)%Z /\ forall lim, string_to_phase (phase_to_s lim a HBOX) <> Ok (Some a).
Proof. exists 1%Qc. split; [vm_compute; discriminate|]. intros lim H. rewrite phase_roundtrip_hbox in H by (vm_compute; discriminate). change (qeqb 1%Qc 1%Qc) with true in H. discriminate H. Qed.
Print Assumptions C43_hbox_refuted.
(** Beyond the bound nothing printed is read as a number. *)
Theorem C43_large_denominator : forall lim a t, (256 < qden a)%Z -> string_to_phase (phase_to_s lim a t) = Ok None.
Proof. exact phase_large. Qed.
Print Assumptions C43_large_denominator.
(** Hand-written fractions: any spelling of pi (or none) between numerator and slash;
    a zero denominator escapes as ZeroDivisionError. *)
Theorem C43_written_fraction : forall n d sp, pi_spelling sp ->
  string_to_phase (str_of_Z n ++ sp ++ c_slash :: str_of_Z d) = if Z.eqb d 0 then Err ZeroDivisionError else Ok (Some (Qcz n / Qcz d)%Qc).
Proof. exact written_fraction. Qed.
Print Assumptions C43_written_fraction.

(** "-7π/4", "π", "π/256", "" and " \Pi " *)
Example C43_case : phase_to_s (fun q => q) (frac (-7) 4) ZSP = [45; 55; 960; 47; 52]%N /\ string_to_phase [45; 55; 960; 47; 52]%N = Ok (Some (frac (-7) 4)) /\
  phase_to_s (fun q => q) 1%Qc XSP = [960]%N /\ phase_to_s (fun q => q) (frac 1 256) ZSP = [960; 47; 50; 53; 54]%N /\ (qden (frac 1 256) <= 256)%Z /\
  phase_to_s (fun q => q) 0%Qc ZSP = [] /\ (256 < qden (frac 1 257))%Z /\ pi_spelling [32; 92; 80; 105; 32]%N.
Proof.
  split; [vm_compute; reflexivity|]. split; [vm_compute; f_equal; f_equal; apply Qc_is_canon; reflexivity|]. repeat (split; [vm_compute; try reflexivity; discriminate|]).
  apply sp_blank. apply (sp_back_word 80%N 105%N); [right; left; reflexivity|left; reflexivity|apply bl_space, bl_none].
Qed.

(** Property theorems about magic state decompositions (C38). *)
From Coq Require Import Reals ZArith QArith Qcanon List Bool Arith.
From Verif Require Import CNum Base ScalarModel ScalarProofs GraphModel GraphSem RuleLemmas InvProofs TotalProofs BfixProofs Decide RunEx ZXFacts GraphAlgProofs GraphAlgFacts AlgUse MagicModel MagicAlg MagicSum MagicEx.
Import ListNotations.
Open Scope nat_scope.

(** ** C38 *)
(** Every outcome of replace_magic_states on a diagram whose T-like spiders are Z
    spiders: it raises exactly when there is none, and otherwise returns seven or two
    diagrams with the same interface, six, two or one fewer T-like spiders each, whose
    values add up to the value of the diagram for all bits on inputs and outputs. *)
Theorem C38_sum : forall b g r, zinv g -> io_ok g -> tz g -> replace_magic_states b g r ->
  (tcount g = 0 /\ r = None) \/
  exists hs, tcount g <> 0 /\ r = Some (Ok hs) /\ length hs = (if Nat.leb 6 (tcount g) then 7 else 2) /\
    (forall h, In h hs -> zinv h /\ io_ok h /\ length (ginputs h) = length (ginputs g) /\ length (goutputs h) = length (goutputs g) /\
       tcount h + kof (tcount g) = tcount g /\ (allph quarter g -> allph quarter h) /\ ((forall v, In v (vertices g) -> vty g v = ZSP \/ vty g v = BOUNDARY) -> forall v, In v (vertices h) -> vty h v = ZSP \/ vty h v = BOUNDARY)) /\
    forall i y, csum (map (fun h => val h i y) hs) = val g i y.
Proof. exact magic_sound. Qed.
Print Assumptions C38_sum.
(** There is an outcome, whether the spiders are picked at random or by rank. *)
Theorem C38_total : forall b g, zinv g -> io_ok g -> exists r, replace_magic_states b g r.
Proof. exact magic_ex. Qed.
Print Assumptions C38_total.
(** With a T-like X spider the values need not add up. *)
Theorem C38_xspider_refuted : exists g hs, zinv g /\ io_ok g /\ allph quarter g /\ replace_magic_states false g (Some (Ok hs)) /\
  forall i y, csum (map (fun h => val h i y) hs) <> val g i y.
Proof. exact magic_x_refuted. Qed.
Print Assumptions C38_xspider_refuted.
Example C38_case : (zinv ex_seven /\ io_ok ex_seven /\ tz ex_seven /\ tcount ex_seven = 7) /\ (zinv ex_three_t /\ io_ok ex_three_t /\ tz ex_three_t /\ tcount ex_three_t = 3) /\
  tcount ex_cup = 0.
Proof.
  split; [|split; [|vm_compute; reflexivity]]; (split; [apply zinvb_ok; vm_compute; reflexivity|]; split; [apply io_okb_ok; vm_compute; reflexivity|]; split; [apply tzb_ok; vm_compute; reflexivity|vm_compute; reflexivity]).
Qed.

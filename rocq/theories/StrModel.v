(** Phases as strings (pyzx/utils.py phase_to_s, pyzx/graph/jsonparser.py
    string_to_phase).  Strings are lists of Unicode code points. *)
From Coq Require Import ZArith NArith QArith Qcanon List Bool Decimal DecimalZ.
From Verif Require Import CNum Base ScalarModel GraphModel.
Import ListNotations.
Open Scope N_scope.

Definition str := list N.
Definition c_space : N := 32. Definition c_plus : N := 43. Definition c_minus : N := 45. Definition c_dot : N := 46.
Definition c_slash : N := 47. Definition c_zero : N := 48. Definition c_back : N := 92. Definition c_e : N := 101.
Definition c_i : N := 105. Definition c_p : N := 112. Definition c_tilde : N := 126. Definition c_pi : N := 960.
Definition cmem (c : N) (s : str) : bool := existsb (N.eqb c) s.

(** Python's str(n) for integers *)
Fixpoint uint_chars (u : Decimal.uint) : str :=
  match u with
  | Decimal.Nil => []
  | D0 u => 48 :: uint_chars u | D1 u => 49 :: uint_chars u | D2 u => 50 :: uint_chars u | D3 u => 51 :: uint_chars u | D4 u => 52 :: uint_chars u
  | D5 u => 53 :: uint_chars u | D6 u => 54 :: uint_chars u | D7 u => 55 :: uint_chars u | D8 u => 56 :: uint_chars u | D9 u => 57 :: uint_chars u
  end.
Definition str_of_Z (z : Z) : str :=
  match Z.to_int z with Decimal.Pos u => uint_chars u | Decimal.Neg u => c_minus :: uint_chars u end.

(** Python's int(s): None stands for ValueError (underscores, blanks and digits
    outside ASCII, which int also accepts, are not modelled) *)
Fixpoint chars_uint (s : str) : option Decimal.uint :=
  match s with
  | [] => Some Decimal.Nil
  | c :: s' =>
    match chars_uint s' with
    | None => None
    | Some u =>
      match c with
      | 48 => Some (D0 u) | 49 => Some (D1 u) | 50 => Some (D2 u) | 51 => Some (D3 u) | 52 => Some (D4 u)
      | 53 => Some (D5 u) | 54 => Some (D6 u) | 55 => Some (D7 u) | 56 => Some (D8 u) | 57 => Some (D9 u)
      | _ => None
      end
    end
  end.
Definition digits_of (s : str) : option Decimal.uint := match s with [] => None | _ => chars_uint s end.
Definition int_of (s : str) : option Z :=
  match s with
  | c :: s' =>
    if N.eqb c c_minus then option_map (fun u => Z.of_int (Decimal.Neg u)) (digits_of s')
    else if N.eqb c c_plus then option_map (fun u => Z.of_int (Decimal.Pos u)) (digits_of s')
    else option_map (fun u => Z.of_int (Decimal.Pos u)) (digits_of s)
  | [] => None
  end.

(** utils.py 92-109, phase_fraction_to_s for numbers, and 86-88; [lim] is
    Fraction.limit_denominator(256) *)
Definition phase_to_s (lim : Qc -> Qc) (a : Qc) (t : vtype) : str :=
  if qeqb a 0%Qc && negb (vtype_eqb t HBOX) then []
  else if qeqb a 1%Qc && vtype_eqb t HBOX then []
  else if qeqb a 0%Qc then [c_zero]
  else
    let big := Z.ltb 256 (qden a) in
    let simstr := if big then [c_tilde] else [] in
    let a := if big then lim a else a in
    let ns := if Z.eqb (qnum a) 1 then [] else str_of_Z (qnum a) in
    let ds := if Z.eqb (qden a) 1 then [] else c_slash :: str_of_Z (qden a) in
    simstr ++ ns ++ c_pi :: ds.

(** string.lower() on the letters that matter *)
Definition lower (c : N) : N := if (65 <=? c) && (c <=? 90) then c + 32 else if N.eqb c 928 then c_pi else c.
(** jsonparser.py 49, re.sub(r'\\?(pi|\u03c0)', '', s) *)
Fixpoint drop_pi (s : str) : str :=
  match s with
  | [] => []
  | c :: s' =>
    if N.eqb c c_pi then drop_pi s'
    else match s' with
    | d :: s'' =>
      if N.eqb c c_p && N.eqb d c_i then drop_pi s''
      else if N.eqb c c_back && N.eqb d c_pi then drop_pi s''
      else match s'' with
      | e :: s3 => if N.eqb c c_back && N.eqb d c_p && N.eqb e c_i then drop_pi s3 else c :: drop_pi s'
      | [] => c :: drop_pi s'
      end
    | [] => [c]
    end
  end.
(** s.split("/", 2), as far as [a, b = ...] needs it: the two parts if there is exactly one slash *)
Fixpoint split_slash (s : str) : str * option str :=
  match s with
  | [] => ([], None)
  | c :: s' => if N.eqb c c_slash then ([], Some s') else let (a, b) := split_slash s' in (c :: a, b)
  end.
(** Fraction(a, b) *)
Definition mkfrac (a b : Z) : res Qc := if Z.eqb b 0 then Err ZeroDivisionError else Ok (Qcz a / Qcz b)%Qc.

(** jsonparser.py 44-71, string_to_phase.  [Ok None]: the string is handed to
    float() or to the parser of symbolic expressions (not modelled). *)
Definition string_to_phase (s0 : str) : res (option Qc) :=
  match s0 with
  | [] => Ok (Some 0%Qc)
  | _ =>
    let s := drop_pi (filter (fun c => negb (N.eqb c c_space)) (map lower s0)) in
    match s with
    | [] => Ok (Some 1%Qc)
    | _ =>
      if (match s with [c] => N.eqb c c_minus | _ => false end) then Ok (Some (- (1))%Qc)
      else if cmem c_dot s || cmem c_e s then Ok None
      else if cmem c_slash s then
        match split_slash s with
        | (a, Some b) =>
          if cmem c_slash b then Ok None
          else match a with
          | [] => match int_of b with None => Ok None | Some d => let* q := mkfrac 1 d in Ok (Some q) end
          | _ =>
            let a := match a with [c] => if N.eqb c c_minus then [c_minus; 49] else a | _ => a end in
            match int_of a, int_of b with
            | Some n, Some d => let* q := mkfrac n d in Ok (Some q)
            | _, _ => Ok None
            end
          end
        | (_, None) => Ok None
        end
      else match int_of s with Some n => Ok (Some (Qcz n)) | None => Ok None end
    end
  end.

(** * Names in camel case and with underscores *)
From Verif Require Import Base Regex DistNames_Model.
Set Implicit Arguments.

(** A class name consists of capitalised words ("Gamma") and acronyms ("KDE"); no two acronyms follow
    each other. *)
Inductive piece : Type := Word (first : N) (others : str) | Acronym (letters : str).
Definition is_upper (c : N) : Prop := (65 <= c <= 90)%N.
Definition is_lower (c : N) : Prop := (97 <= c <= 122)%N.
Definition wf_piece (p : piece) : Prop :=
  match p with
  | Word c l => is_upper c /\ l <> [] /\ Forall is_lower l
  | Acronym l => l <> [] /\ Forall is_upper l
  end.
Definition is_acronym (p : piece) : bool := match p with Acronym _ => true | _ => false end.
Fixpoint wf_pieces (ps : list piece) : Prop :=
  match ps with
  | [] => True
  | p :: ps' => wf_piece p /\ (match ps' with q :: _ => is_acronym p && is_acronym q = false | [] => True end) /\ wf_pieces ps'
  end.
Definition camel (p : piece) : str := match p with Word c l => c :: l | Acronym l => l end.
Definition camel_name (ps : list piece) : str := concat (map camel ps).

(** small letters *)
Definition small (p : piece) : str :=
  match p with Word c l => (c + 32)%N :: l | Acronym l => map (fun c => (c + 32)%N) l end.
Definition distribution : str := lit "distribution".
Fixpoint underscores (l : list str) : str :=
  match l with [] => [] | [w] => w | w :: l' => w ++ 95%N :: underscores l' end.
(** the words in small letters, without "distribution" except in front, joined by underscores *)
Definition underscore_name (ps : list piece) : str :=
  match map small ps with
  | [] => []
  | w :: ws => underscores (w :: filter (fun x => negb (eqb x distribution)) ws)
  end.
(** no other word begins with "distribution" *)
Definition clean (ps : list piece) : Prop :=
  forall p q rest, In p (tl ps) -> small p = distribution ++ q :: rest -> False.

(** [descends c d]: class [d] is derived from [c], directly or through other classes *)
Inductive descends : class -> class -> Prop :=
| direct id name l d : In d l -> descends (Class id name l) d
| indirect id name l c d : In c l -> descends c d -> descends (Class id name l) d.

(** * What C57, C58 and C67 mean. *)
From Coq Require Import ZArith String Ascii.
From Verif Require Import Num ModelIO.
Open Scope R_scope.

(** Names of the columns declared by a sequence of logger calls, in order. *)
Fixpoint declared (os : list log_op) : list string :=
  match os with
  | [] => []
  | Declare k _ :: os' => k :: declared os'
  | Update _ _ :: os' => declared os'
  end.
(** The last value given to a column by update calls, 0 if there was none. *)
Fixpoint last_value (os : list log_op) (k : string) (default : R) : R :=
  match os with
  | [] => default
  | Update k' v :: os' => last_value os' k (if String.eqb k' k then v else default)
  | Declare _ _ :: os' => last_value os' k default
  end.
(** The format a column was declared with. *)
Fixpoint declared_format (os : list log_op) (k : string) : option format :=
  match os with
  | [] => None
  | Declare k' f :: os' => if String.eqb k' k then Some f else declared_format os' k
  | Update _ _ :: os' => declared_format os' k
  end.
(** No column is declared after its name has been used (declared or updated) before. *)
Fixpoint fresh_declarations (os : list log_op) (used : list string) : Prop :=
  match os with
  | [] => True
  | Declare k _ :: os' => ~ In k used /\ fresh_declarations os' (k :: used)
  | Update k _ :: os' => fresh_declarations os' (k :: used)
  end.
Definition cell_of (k : string) (f : format) (v : R) (c : cell) : Prop :=
  match f with
  | Integer => exists z, c = IntCell k z /\
                 ((0 <= v -> IZR z <= v < IZR z + 1) /\ (v <= 0 -> z = 0%Z))
  | Decimal => c = DecCell k v
  | Scientific => c = SciCell k v
  end.

(** Text split at a delimiter: pieces do not contain it and, joined with it, give the text;
    a delimiter at the very end does not open another (empty) piece. *)
Fixpoint join (d : ascii) (ps : list string) : string :=
  match ps with
  | [] => EmptyString
  | [p] => p
  | p :: ps' => (p ++ String d (join d ps'))%string
  end.
Fixpoint free_of (d : ascii) (s : string) : Prop :=
  match s with EmptyString => True | String c s' => c <> d /\ free_of d s' end.
Definition splits (d : ascii) (s : string) (ps : list string) : Prop :=
  (forall p, In p ps -> free_of d p) /\
  ((s = join d ps /\ last ps "x"%string <> EmptyString) \/
   (ps <> [] /\ s = (join d ps ++ String d EmptyString)%string)).

(** The lines before the first blank one. *)
Fixpoint leading (ls : list string) : list string :=
  match ls with
  | [] => []
  | l :: ls' => if blank l then [] else l :: leading ls'
  end.
(** A well-formed line with [n] numbers. *)
Definition line_holds (stod : string -> option R) (n : nat) (line : string) (v : list R) : Prop :=
  length v = n /\ exists ps, splits comma line ps /\ map stod ps = map (@Some R) v.
(** A well-formed file. *)
Definition file_holds (stod : string -> option R) (n : nat) (content : string) (vs : list (list R)) : Prop :=
  exists ls, splits newline content ls /\ Forall2 (line_holds stod n) (leading ls) vs.

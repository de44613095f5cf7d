(** JSON texts: the grammar of RFC 8259 on bytes. *)
From Verif Require Import Base SpecText SpecHex Json SpecJson.

(** Section 2: white space *)
Definition ws (s : list byte) : Prop := Forall (fun c => In c [x20; x09; x0a; x0d]) s.
(** Section 6: numbers *)
Definition some_digits (s : list byte) : Prop := s <> [] /\ digits s.
Definition json_number (s : list byte) : Prop :=
  exists minus int frac exp, s = minus ++ int ++ frac ++ exp
    /\ (minus = [] \/ minus = str "-")
    /\ some_digits int /\ (forall t, int = x30 :: t -> t = [])
    /\ (frac = [] \/ exists ds, frac = str "." ++ ds /\ some_digits ds)
    /\ (exp = [] \/ exists e sign ds, exp = e :: sign ++ ds /\ In e [x65; x45] /\ In sign [[]; str "+"; str "-"] /\ some_digits ds).
(** Section 7: between the quotes of a string.  Bytes of 128 and more are not examined:
    encoding/json takes what is not UTF-8 as well. *)
Inductive string_item : list byte -> Prop :=
| item_plain c : 32 <= zb c -> c <> x22 -> c <> x5c -> string_item [c]
| item_short e : In e [x22; x5c; x2f; x62; x66; x6e; x72; x74] -> string_item [x5c; e]
| item_hex a b c d r : hex4 a b c d r -> string_item [x5c; x75; a; b; c; d].
Definition string_body (raw : list byte) : Prop := exists items, Forall string_item items /\ raw = concat items.
(** Sections 3 to 5: values, without white space around them *)
Inductive denotes : list byte -> json -> Prop :=
| d_null : denotes (str "null") JNull
| d_true : denotes (str "true") (JBool true)
| d_false : denotes (str "false") (JBool false)
| d_number s : json_number s -> denotes s (JNum s)
| d_string raw : string_body raw -> denotes (dq raw) (JStr raw)
| d_no_elements w : ws w -> denotes (str "[" ++ w ++ str "]") (JArr [])
| d_elements s l : elements s l -> denotes (str "[" ++ s ++ str "]") (JArr l)
| d_no_members w : ws w -> denotes (str "{" ++ w ++ str "}") (JObj [])
| d_members s l : some_members s l -> denotes (str "{" ++ s ++ str "}") (JObj l)
with elements : list byte -> list json -> Prop :=
| e_last w s w' j : ws w -> denotes s j -> ws w' -> elements (w ++ s ++ w') [j]
| e_more w s w' j s' l : ws w -> denotes s j -> ws w' -> elements s' l -> elements (w ++ s ++ w' ++ str "," ++ s') (j :: l)
with some_members : list byte -> list (list byte * json) -> Prop :=
| m_last w k w' w'' s w''' j : ws w -> string_body k -> ws w' -> ws w'' -> denotes s j -> ws w''' ->
    some_members (w ++ dq k ++ w' ++ str ":" ++ w'' ++ s ++ w''') [(k, j)]
| m_more w k w' w'' s w''' j s' l : ws w -> string_body k -> ws w' -> ws w'' -> denotes s j -> ws w''' -> some_members s' l ->
    some_members (w ++ dq k ++ w' ++ str ":" ++ w'' ++ s ++ w''' ++ str "," ++ s') ((k, j) :: l).
(** Section 9: an implementation may limit the nesting.  At most [n] arrays and objects
    are inside each other. *)
Inductive nested : Z -> json -> Prop :=
| n_flat n j : 0 <= n -> match j with JArr _ | JObj _ => False | _ => True end -> nested n j
| n_array n l : 0 < n -> Forall (nested (n - 1)) l -> nested n (JArr l)
| n_object n l : 0 < n -> Forall (fun kj => nested (n - 1) (snd kj)) l -> nested n (JObj l).
Definition grammatical (text : list byte) (j : json) : Prop :=
  exists w s w', text = w ++ s ++ w' /\ ws w /\ denotes s j /\ ws w'.
Definition json_text (text : list byte) (j : json) : Prop := grammatical text j /\ nested 10000 j.

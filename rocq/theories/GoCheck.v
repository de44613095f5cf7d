(** What the Go compiler checks of the programs of GoLang.v: types, scopes, variables that are
    declared and not used, and that a function ends in a return statement. *)
From Verif Require Import Base Prog AbiPrim Chain Values Leaf GoStd Numbers Reflect Codegen GoLang.

(** ** Types *)

(** The types of expressions: a Go type; error; nil; a constant string; *abi.Encoder;
    *abi.Decoder; the struct, or a pointer to it, with its fields. *)
Inductive gty :=
| YAt (t : gtype)
| YErr
| YNil
| YText
| YEncoder
| YDecoder
| YFields (fs : list (ident * gtype)).
Notation tenv := (list (ident * gty)).
Definition same_kind (a b : kind) : bool := if kind_dec a b then true else false.
(** Identical types, as far as values of them are assigned here: Go's own types ([[]byte] is
    [TLeaf KGoBytes]) and pointers to them. *)
Definition identical (t u : gtype) : bool :=
  match t, u with
  | TLeaf k, TLeaf k' | TPtr (TLeaf k), TPtr (TLeaf k') => same_kind k k'
  | _, _ => false
  end.
Definition integer_kind (k : kind) : bool :=
  match k with KU8 | KU16 | KU32 | KU64 | KI8 | KI16 | KI32 | KI64 | KInt | KUint => true | _ => false end.
Definition nilable (E : types) (t : gtype) : bool :=
  match head E t with TPtr _ | TSlice _ | TMap _ _ | TLeaf KGoBytes => true | _ => false end.
Definition has_len (E : types) (t : gtype) : bool :=
  match head E t with
  | TSlice _ | TArray _ _ | TMap _ _ | TLeaf KGoBytes | TLeaf KString => true
  | TPtr u => match head E u with TArray _ _ => true | _ => false end
  | _ => false
  end.
Definition blank : ident := str "_".
Fixpoint type_of (E : types) (G : tenv) (a : gexpr) : option gty :=
  match a with
  | EVar x => match lookup x G with
              | Some y => Some y
              | None => if same_text x (str "nil") then Some YNil else None
              end
  | ENum n => if n <? 2 ^ 63 then Some (YAt (TLeaf KInt)) else None
  | EStr _ => Some YText
  | ESel a x => match type_of E G a with
                | Some (YFields fs) => if same_text x blank then None else option_map YAt (lookup x fs)
                | _ => None
                end
  | EParen a => type_of E G a
  | EStar a => match type_of E G a with
               | Some (YAt t) => match head E t with TPtr u => Some (YAt u) | _ => None end
               | _ => None
               end
  | EAddr (EVar x) => match lookup x G with Some (YAt t) => Some (YAt (TPtr t)) | _ => None end
  | EIndex a b => match type_of E G a, type_of E G b with
                  | Some (YAt t), Some (YAt (TLeaf KInt)) => option_map YAt (element_type E t)
                  | _, _ => None
                  end
  | ENe a b => match type_of E G a, type_of E G b with
               | Some YErr, Some YNil => Some (YAt (TLeaf KBool))
               | Some (YAt t), Some YNil => if nilable E t then Some (YAt (TLeaf KBool)) else None
               | _, _ => None
               end
  | ECall1 (EVar f) a =>                           (* predeclared functions and conversions *)
      match lookup f G, type_of E G a with
      | None, Some (YAt t) =>
          if same_text f (str "len") then if has_len E t then Some (YAt (TLeaf KInt)) else None
          else match t with
               | TLeaf k => if integer_kind k then
                              if same_text f (str "uint") then Some (YAt (TLeaf KUint))
                              else if same_text f (str "int") then Some (YAt (TLeaf KInt)) else None
                            else None
               | _ => None
               end
      | _, _ => None
      end
  | ECall1 (ESel (EVar p) f) a =>                  (* a function of a package *)
      match lookup p G, type_of E G a with
      | None, Some YText => if same_text p (str "errors") && same_text f (str "New") then Some YErr else None
      | _, _ => None
      end
  | _ => None
  end.
(** Calls of methods, and what else may stand at the right of an assignment: the types of the
    results.  ReadBytes takes an argument and has three results. *)
Definition types_of (E : types) (G : tenv) (r : gexpr) : option (list gty) :=
  match r with
  | ECall0 (ESel a m) =>
      match type_of E G a, method_kind "Read" m with
      | Some YDecoder, Some KGoBytes => None
      | Some YDecoder, Some k => Some [YAt (TLeaf k); YErr]
      | _, _ => None
      end
  | ECall1 (ESel a m) b =>
      match type_of E G a, type_of E G b with
      | Some YEncoder, Some (YAt t) =>
          match method_kind "Write" m with Some k => if identical t (TLeaf k) then Some [YErr] else None | None => None end
      | Some (YAt t), Some YEncoder => if same_text m (str "MarshalABI") && callable E t then Some [YErr] else None
      | Some (YAt t), Some YDecoder => if same_text m (str "UnmarshalABI") && callable E t then Some [YErr] else None
      | _, _ => option_map (fun y => [y]) (type_of E G r)
      end
  | _ => option_map (fun y => [y]) (type_of E G r)
  end.
Fixpoint variable (a : gexpr) : bool :=
  match a with EVar _ | ESel _ _ | EIndex _ _ | EStar _ => true | EParen a => variable a | _ => false end.
Definition fits (E : types) (G : tenv) (a : gexpr) (y : gty) : bool :=
  variable a && match type_of E G a, y with
                | Some YErr, YErr | Some YErr, YNil => true
                | Some (YAt t), YAt u => identical t u
                | _, _ => false
                end.
Fixpoint all_fit (E : types) (G : tenv) (l : list gexpr) (ys : list gty) : bool :=
  match l, ys with
  | [], [] => true
  | a :: l, y :: ys => fits E G a y && all_fit E G l ys
  | _, _ => false
  end.
Definition set_ok (E : types) (G : tenv) (l : list gexpr) (r : gexpr) : bool :=
  match r, l with
  | EMake T n, [a] =>
      variable a &&
      match type_of E G a, type_of E G n with
      | Some (YAt t), Some (YAt (TLeaf k)) =>
          integer_kind k && match head E t with
                            | TSlice u => names_type T u
                            | TLeaf KGoBytes => names_type T (TLeaf KU8)
                            | _ => false
                            end
      | _, _ => false
      end
  | EMake _ _, _ => false
  | _, _ => match types_of E G r with Some ys => all_fit E G l ys | None => false end
  end.
Definition named_type (T : list token) : option gty :=
  match zero_value T with Some (VErr _) => Some YErr | Some (VAt t _) => Some (YAt t) | _ => None end.

(** ** Statements

    [F]: what the block has declared so far, [O]: what is declared outside.  The result is the
    declarations of the block with those of the statement. *)
Fixpoint check (E : types) (F O : tenv) (s : gstmt) : option tenv :=
  match s with
  | GSkip => Some F
  | GSeq a b => match check E F O a with Some F => check E F O b | None => None end
  | GVar x T => match lookup x F, named_type T with
                | None, Some y => Some ((x, y) :: F)
                | _, _ => None
                end
  | GSet l r => if set_ok E (F ++ O) l r then Some F else None
  | GIf init c a =>
      if match init with Some (l, r) => set_ok E (F ++ O) l r | None => true end then
        match type_of E (F ++ O) c with
        | Some (YAt (TLeaf KBool)) => match check E [] (F ++ O) a with Some _ => Some F | None => None end
        | _ => None
        end
      else None
  | GIfElse c a b =>
      match type_of E (F ++ O) c with
      | Some (YAt (TLeaf KBool)) =>
          match check E [] (F ++ O) a, check E [] (F ++ O) b with Some _, Some _ => Some F | _, _ => None end
      | _ => None
      end
  | GFor x n a =>                                  (* x is an int; it is in a scope of its own *)
      let G := (x, YAt (TLeaf KInt)) :: F ++ O in
      match type_of E G n with
      | Some (YAt (TLeaf KInt)) => match check E [] G a with Some _ => Some F | None => None end
      | _ => None
      end
  | GReturn a => match type_of E (F ++ O) a with Some YErr | Some YNil => Some F | _ => None end
  end.

(** ** Variables declared and not used *)
Definition has (x : ident) (l : list ident) : bool := existsb (same_text x) l.
Definition without (xs l : list ident) : list ident := filter (fun x => negb (has x xs)) l.
Fixpoint uses (a : gexpr) : list ident :=
  match a with
  | EVar x => [x]
  | ENum _ | EStr _ => []
  | ESel a _ | EStar a | EAddr a | EParen a | ECall0 a | EMake _ a => uses a
  | EIndex a b | ENe a b | ECall1 a b => uses a ++ uses b
  end.
(** To assign to a variable is not to use it. *)
Definition set_uses (l : list gexpr) (r : gexpr) : list ident :=
  flat_map (fun a => match a with EVar _ => [] | a => uses a end) l ++ uses r.
Fixpoint declares (s : gstmt) : list ident :=
  match s with GSeq a b => declares a ++ declares b | GVar x _ => [x] | _ => [] end.
(** The variables from outside that a statement uses. *)
Fixpoint free (s : gstmt) : list ident :=
  match s with
  | GSkip | GVar _ _ => []
  | GSeq a b => free a ++ without (declares a) (free b)
  | GSet l r => set_uses l r
  | GIf init c a => match init with Some (l, r) => set_uses l r | None => [] end ++ uses c ++ free a
  | GIfElse c a b => uses c ++ free a ++ free b
  | GFor x n a => without [x] (uses n ++ free a)
  | GReturn a => uses a
  end.
(** [K]: the variables that the rest of the block uses. *)
Fixpoint all_used (s : gstmt) (K : list ident) : bool :=
  match s with
  | GSkip | GSet _ _ | GReturn _ => true
  | GVar x _ => has x K
  | GSeq a b => all_used a (free b ++ without (declares b) K) && all_used b K
  | GIf _ _ a | GFor _ _ a => all_used a []
  | GIfElse _ a b => all_used a [] && all_used b []
  end.
(** "Terminating statements" *)
Fixpoint returns (s : gstmt) : bool :=
  match s with
  | GReturn _ => true
  | GSeq a b => returns b
  | GIfElse _ a b => returns a && returns b
  | _ => false
  end.

(** ** Functions *)
Definition param_type (f : gfunc) : gty := if same_text (g_ptype f) (str "Encoder") then YEncoder else YDecoder.
Definition func_ok (E : types) (fs : list (ident * gtype)) (f : gfunc) : bool :=
  match check E [(g_param f, param_type f); (g_recv f, YFields fs)] [] (g_body f) with Some _ => true | None => false end
  && all_used (g_body f) [] && returns (g_body f).

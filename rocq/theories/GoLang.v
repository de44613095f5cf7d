(** The fragment of the Go language that pkg/codegen's output is written in: its tokens
    (Go specification, "Lexical elements"), the programs those tokens spell, and what
    running such a program does. *)
From Verif Require Import Base Prog AbiPrim Chain Values Leaf GoStd Numbers Reflect Codegen.

(** ** Tokens *)

(** Names, keywords and numbers; string literals (what stands between the quotes); operators
    and punctuation. *)
Inductive token := Word (w : list byte) | Quote (s : list byte) | Sign (s : list byte).
Definition sign (s : string) : token := Sign (str s).
Definition word (s : string) : token := Word (str s).

(** Letters, digits, underscores, and the bytes of characters beyond ASCII. *)
Definition word_char (c : byte) : bool :=
  ((97 <=? zb c) && (zb c <=? 122)) || ((65 <=? zb c) && (zb c <=? 90)) || ((48 <=? zb c) && (zb c <=? 57))
  || (zb c =? 95) || (128 <=? zb c).
Definition one_of (s : list byte) (l : list string) : bool := existsb (fun x => same_text s (str x)) l.
(** Keywords behind which a line does not end a statement. *)
Definition open_keywords : list string :=
  ["case"; "chan"; "const"; "default"; "defer"; "else"; "for"; "func"; "go"; "goto"; "if"; "import";
   "interface"; "map"; "package"; "range"; "select"; "struct"; "switch"; "type"; "var"]%string.
(** "Semicolons": the tokens behind which the end of a line is one. *)
Definition ends_statement (t : token) : bool :=
  match t with
  | Word w => negb (one_of w open_keywords)
  | Quote _ => true
  | Sign s => one_of s [")"; "]"; "}"; "++"; "--"]%string
  end.
(** Signs of one character, and those that may be the beginning of a longer one. *)
Definition single (c : byte) : bool := one_of [c] ["("; ")"; "["; "]"; "{"; "}"; ","; ";"; "."]%string.
Definition opens (c : byte) : bool := one_of [c] ["="; "!"; "<"; "+"; ":"; "&"; "*"]%string.
Definition double (c d : byte) : bool :=
  one_of [c; d] ["=="; "!="; "<="; "<<"; "<-"; "++"; "+="; ":="; "&&"; "&="; "&^"; "*="]%string.

(** The scanner, a byte at a time.  [Broken]: something outside the fragment. *)
Inductive mode := Idle | InWord (acc : list byte) | InQuote (acc : list byte) | InEscape (acc : list byte) | InSign (c : byte) | Broken.
Definition lstate : Type := list token * mode.         (* the last token first *)
Definition start (out : list token) (c : byte) : lstate :=
  if word_char c then (out, InWord [c])
  else if Byte.eqb c x22 then (out, InQuote [])
  else if Byte.eqb c x0a then
    (match out with t :: _ => if ends_statement t then sign ";" :: out else out | [] => [] end, Idle)
  else if Byte.eqb c x20 || Byte.eqb c x09 || Byte.eqb c x0d then (out, Idle)
  else if single c then (Sign [c] :: out, Idle)
  else if opens c then (out, InSign c)
  else (out, Broken).
Definition step (st : lstate) (c : byte) : lstate :=
  let '(out, m) := st in
  match m with
  | Idle => start out c
  | InWord acc => if word_char c then (out, InWord (c :: acc)) else start (Word (rev acc) :: out) c
  | InQuote acc =>
      if Byte.eqb c x22 then (Quote (rev acc) :: out, Idle)
      else if Byte.eqb c x5c then (out, InEscape acc)
      else if Byte.eqb c x0a then (out, Broken)
      else (out, InQuote (c :: acc))
  | InEscape acc => if Byte.eqb c x0a then (out, Broken) else (out, InQuote (c :: x5c :: acc))
  | InSign s => if double s c then (Sign [s; c] :: out, Idle) else start (Sign [s] :: out) c
  | Broken => (out, Broken)
  end.
Definition scan (s : list byte) (st : lstate) : lstate := fold_left step s st.
(** The end of the file is the end of a line. *)
Definition tokens_of (s : list byte) : option (list token) :=
  match step (scan s ([], Idle)) x0a with
  | (out, Idle) => Some (rev out)
  | _ => None
  end.
(** The tokens of a type's text. *)
Definition type_tokens (text : list byte) : list token :=
  match scan text ([], Idle) with
  | (out, InWord acc) => rev (Word (rev acc) :: out)
  | (out, InSign c) => rev (Sign [c] :: out)
  | (out, _) => rev out
  end.
Definition token_dec (a b : token) : {a = b} + {a <> b}.
Proof. decide equality; apply byte_list_dec. Defined.

(** ** Programs *)

Notation ident := (list byte).
Inductive gexpr :=
| EVar (x : ident)
| ENum (n : Z)
| EStr (s : list byte)
| ESel (a : gexpr) (x : ident)                     (* a.x *)
| EStar (a : gexpr)                                (* *a *)
| EAddr (a : gexpr)                                (* &a *)
| EParen (a : gexpr)
| EIndex (a i : gexpr)                             (* a[i] *)
| ENe (a b : gexpr)                                (* a != b *)
| ECall0 (f : gexpr)
| ECall1 (f a : gexpr)
| EMake (elem : list token) (n : gexpr).           (* make([]elem, n) *)
Inductive gstmt :=
| GSkip
| GSeq (a b : gstmt)
| GVar (x : ident) (t : list token)                (* var x t *)
| GSet (lhs : list gexpr) (rhs : gexpr)            (* lhs = rhs *)
| GIf (init : option (list gexpr * gexpr)) (c : gexpr) (a : gstmt)      (* if init; c { a } *)
| GIfElse (c : gexpr) (a b : gstmt)
| GFor (x : ident) (n : gexpr) (a : gstmt)         (* for x := 0; x < n; x++ { a } *)
| GReturn (a : gexpr).
(** func (recv [*]type) name(param *abi.ptype) error { body } *)
Record gfunc := { g_recv : ident; g_ptr : bool; g_type : ident; g_name : ident; g_param : ident; g_ptype : ident; g_body : gstmt }.

(** How they are spelled. *)
Fixpoint etoks (a : gexpr) : list token :=
  match a with
  | EVar x => [Word x]
  | ENum n => [Word (FormatUint n)]
  | EStr s => [Quote s]
  | ESel a x => etoks a ++ [sign "."; Word x]
  | EStar a => sign "*" :: etoks a
  | EAddr a => sign "&" :: etoks a
  | EParen a => sign "(" :: etoks a ++ [sign ")"]
  | EIndex a i => etoks a ++ sign "[" :: etoks i ++ [sign "]"]
  | ENe a b => etoks a ++ sign "!=" :: etoks b
  | ECall0 f => etoks f ++ [sign "("; sign ")"]
  | ECall1 f a => etoks f ++ sign "(" :: etoks a ++ [sign ")"]
  | EMake t n => word "make" :: sign "(" :: sign "[" :: sign "]" :: t ++ sign "," :: etoks n ++ [sign ")"]
  end.
Fixpoint lhs_toks (l : list gexpr) : list token :=
  match l with [] => [] | [a] => etoks a | a :: l => etoks a ++ sign "," :: lhs_toks l end.
Definition set_toks (l : list gexpr) (r : gexpr) : list token := lhs_toks l ++ sign "=" :: etoks r.
Fixpoint stoks (s : gstmt) : list token :=
  match s with
  | GSkip => []
  | GSeq a b => stoks a ++ stoks b
  | GVar x t => word "var" :: Word x :: t ++ [sign ";"]
  | GSet l r => set_toks l r ++ [sign ";"]
  | GIf init c a =>
      word "if" :: (match init with Some (l, r) => set_toks l r ++ [sign ";"] | None => [] end)
      ++ etoks c ++ sign "{" :: stoks a ++ [sign "}"; sign ";"]
  | GIfElse c a b =>
      word "if" :: etoks c ++ sign "{" :: stoks a ++ sign "}" :: word "else" :: sign "{" :: stoks b ++ [sign "}"; sign ";"]
  | GFor x n a =>
      [word "for"; Word x; sign ":="; word "0"; sign ";"; Word x; sign "<"] ++ etoks n ++ [sign ";"; Word x; sign "++"; sign "{"]
      ++ stoks a ++ [sign "}"; sign ";"]
  | GReturn a => word "return" :: etoks a ++ [sign ";"]
  end.
Definition ftoks (f : gfunc) : list token :=
  [word "func"; sign "("; Word (g_recv f)] ++ (if g_ptr f then [sign "*"] else []) ++ [Word (g_type f); sign ")"; Word (g_name f);
   sign "("; Word (g_param f); sign "*"; word "abi"; sign "."; Word (g_ptype f); sign ")"; word "error"; sign "{"]
  ++ stoks (g_body f) ++ [sign "}"; sign ";"].
(** Where parentheses are needed they are there ("Operators": selectors, indices and calls bind
    stronger than the unary operators, those stronger than the comparison). *)
Definition primary (a : gexpr) : bool := match a with EStar _ | EAddr _ | ENe _ _ => false | _ => true end.
Definition unary (a : gexpr) : bool := match a with ENe _ _ => false | _ => true end.
Fixpoint proper (a : gexpr) : bool :=
  match a with
  | EVar _ | ENum _ | EStr _ => true
  | ESel a _ => primary a && proper a
  | EStar a | EAddr a => unary a && proper a
  | EParen a => proper a
  | EIndex a b => primary a && proper a && proper b
  | ENe a b => unary a && unary b && proper a && proper b
  | ECall0 f => primary f && proper f
  | ECall1 f a => primary f && proper f && proper a
  | EMake _ n => proper n
  end.

(** ** What they do

    Values of expressions.  As in Reflect.v, values are trees: two pointers to the same
    variable are not represented, and none of the programs here makes use of that.  [VAt]:
    a value of a type; errors; the receiver, a struct, by the names of its fields; nil; the
    Encoder or Decoder. *)
Inductive gval :=
| VAt (t : gtype) (x : rval)
| VErr (e : option gerr)
| VFields (fs : list (ident * (gtype * rval)))
| VNil
| VCodec.
Notation genv := (list (ident * gval)).
Fixpoint lookup {A} (x : ident) (l : list (ident * A)) : option A :=
  match l with [] => None | (y, v) :: l => if same_text x y then Some v else lookup x l end.
Fixpoint update {A} (x : ident) (v : A) (l : list (ident * A)) : list (ident * A) :=
  match l with [] => [] | (y, w) :: l => if same_text x y then (y, v) :: l else (y, w) :: update x v l end.

(** The methods of Encoder and Decoder for Go's own types, behind "Write" or "Read"
    (pkg/abi/encode.go:159-246, decode.go:312-447), by the type of their argument or result. *)
Definition methods : list (list byte * kind) :=
  [(str "Bool", KBool); (str "String", KString); (str "Uint8", KU8); (str "Uint16", KU16); (str "Uint32", KU32); (str "Uint64", KU64);
   (str "Int8", KI8); (str "Int16", KI16); (str "Int32", KI32); (str "Int64", KI64); (str "Float32", KF32); (str "Float64", KF64);
   (str "Varint", KInt); (str "Varuint", KUint); (str "Bytes", KGoBytes)].
Definition method_kind (prefix : string) (m : ident) : option kind :=
  if has_prefix (str prefix) m then lookup (skipn (length (str prefix)) m) methods else None.
(** Predeclared types. *)
Definition basic_types : list (list byte * kind) :=
  [(str "bool", KBool); (str "string", KString); (str "uint8", KU8); (str "byte", KU8); (str "uint16", KU16); (str "uint32", KU32); (str "uint64", KU64);
   (str "int8", KI8); (str "int16", KI16); (str "int32", KI32); (str "int64", KI64); (str "float32", KF32); (str "float64", KF64);
   (str "int", KInt); (str "uint", KUint)].
(** A type is written as reflect prints it. *)
Definition names_type (T : list token) (t : gtype) : bool := if list_eq_dec token_dec T (type_tokens (type_text t)) then true else false.
Definition of_prim (p : prim) : gval := VAt (TLeaf (kind_of p)) (RLeaf p (leaf_zero p)).
Definition zero_value (t : list token) : option gval :=
  match t with
  | [Word w] =>
      if same_text w (str "error") then Some (VErr None)
      else match lookup w basic_types with Some k => Some (VAt (TLeaf k) (RLeaf (zero_prim k) true)) | None => None end
  | _ => None
  end.
(** errors.New: the model's messages stop at the colon behind which a name stands. *)
Fixpoint before_colon (s : list byte) : list byte :=
  match s with [] => [] | c :: s => if Byte.eqb c x3a then [] else c :: before_colon s end.

Definition ill {A} : res A := Panic "ill-typed".
(** Expressions.  Calls of methods are not among them, see [exec]. *)
Fixpoint eval (E : types) (env : genv) (a : gexpr) : res gval :=
  match a with
  | EVar x => match lookup x env with
              | Some v => Ok v
              | None => if same_text x (str "nil") then Ok VNil else ill
              end
  | ENum n => Ok (of_prim (PInt n))
  | ESel a x => rbind (eval E env a) (fun v =>
      match v with
      | VFields fs => match lookup x fs with Some (t, y) => Ok (VAt t y) | None => ill end
      | _ => ill
      end)
  | EParen a => eval E env a
  | EStar a => rbind (eval E env a) (fun v =>
      match v with
      | VAt t x => match head E t, x with
                   | TPtr t', RPtr (Some y) => Ok (VAt t' y)
                   | TPtr _, RPtr None => Panic "nil pointer dereference"
                   | _, _ => ill
                   end
      | _ => ill
      end)
  | EAddr a => rbind (eval E env a) (fun v => match v with VAt t x => Ok (VAt (TPtr t) (RPtr (Some x))) | _ => ill end)
  | EIndex a b => rbind (eval E env a) (fun v => rbind (eval E env b) (fun w =>
      match v, w with
      | VAt t x, VAt (TLeaf KInt) (RLeaf (PInt i) _) =>
          match element_type E t with
          | Some t' => rbind (elements x) (fun l =>
              match nth_error l (Z.to_nat i) with
              | Some y => if i <? 0 then Panic "index out of range" else Ok (VAt t' y)
              | None => Panic "index out of range"
              end)
          | None => ill
          end
      | _, _ => ill
      end))
  | ENe a b => rbind (eval E env a) (fun v => rbind (eval E env b) (fun w =>
      match v, w with
      | VErr e, VNil => Ok (of_prim (PBool match e with Some _ => true | None => false end))
      | VAt t (RPtr o), VNil => Ok (of_prim (PBool match o with Some _ => true | None => false end))
      | _, _ => ill
      end))
  | ECall1 (EVar f) a => rbind (eval E env a) (fun v =>
      match v with
      | VAt t x =>
          if same_text f (str "len") then
            if is_slice E t then rbind (elements x) (fun l => Ok (of_prim (PInt (zlen l)))) else ill
          else if same_text f (str "uint") then
            match x with RLeaf (PInt n) _ => Ok (of_prim (PUint (if n <? 0 then n + 2 ^ 64 else n))) | _ => ill end
          else if same_text f (str "int") then
            match x with RLeaf (PUint n) _ => Ok (of_prim (PInt (i64 n))) | _ => ill end
          else ill
      | _ => ill
      end)
  | ECall1 (ESel (EVar p) f) (EStr s) =>
      if same_text p (str "errors") && same_text f (str "New")
      then Ok (VErr (Some (ErrMsg (string_of_list_byte (before_colon s))))) else ill
  | _ => ill
  end.

(** A value of type [t'] may be assigned to a variable of type [t]. *)
Definition assignable (E : types) (t t' : gtype) : bool :=
  match t' with
  | TLeaf k => is_kind E k t
  | TPtr (TLeaf k) => match head E t with TPtr u => is_kind E k u | _ => false end
  | _ => false
  end.
(** Change what a variable, or a part of one, holds. *)
Fixpoint put (E : types) (env : genv) (a : gexpr) (y : rval) : res genv :=
  match a with
  | EVar x => match lookup x env with Some (VAt t _) => Ok (update x (VAt t y) env) | _ => ill end
  | ESel (EVar x) f =>
      match lookup x env with
      | Some (VFields fs) => match lookup f fs with Some (t, _) => Ok (update x (VFields (update f (t, y) fs)) env) | None => ill end
      | _ => ill
      end
  | EParen a => put E env a y
  | EStar a => rbind (eval E env a) (fun v =>
      match v with VAt _ (RPtr (Some _)) => put E env a (RPtr (Some y)) | _ => Panic "nil pointer dereference" end)
  | EIndex a b => rbind (eval E env a) (fun v => rbind (eval E env b) (fun w =>
      match v, w with
      | VAt _ x, VAt (TLeaf KInt) (RLeaf (PInt i) _) => rbind (assign true (Z.to_nat i) x y) (fun x => put E env a x)
      | _, _ => ill
      end))
  | _ => ill
  end.
Definition store (E : types) (env : genv) (a : gexpr) (v : gval) : res genv :=
  rbind (eval E env a) (fun w =>
    match w, v with
    | VErr _, VErr _ => match a with EVar x => Ok (update x v env) | _ => ill end
    | VAt t _, VAt t' y => if assignable E t t' then put E env a y else ill
    | _, _ => ill
    end).
Fixpoint store_all (E : types) (env : genv) (l : list gexpr) (vs : list gval) : res genv :=
  match l, vs with
  | [], [] => Ok env
  | a :: l, v :: vs => rbind (store E env a v) (fun env => store_all E env l vs)
  | _, _ => ill
  end.
(** make, for the variable it is assigned to: the element type must be that of the variable. *)
Definition make_slice (E : types) (env : genv) (a : gexpr) (T : list token) (n : gexpr) : res genv :=
  rbind (eval E env a) (fun v => rbind (eval E env n) (fun w =>
    match v, w with
    | VAt t _, VAt _ (RLeaf (PUint n) _) =>
        match head E t with
        | TSlice t' =>
            if negb (names_type T t') then ill
            else if make_ok (size_of E t') (i64 n)
            then put E env a (RSlice (Some (repeat (zero E t') (Z.to_nat (i64 n)))))
            else Panic "makeslice: len out of range"
        | TLeaf KGoBytes =>
            if negb (names_type T (TLeaf KU8)) then ill
            else if make_ok 1 (i64 n)
            then put E env a (RLeaf (PGoBytes (zeros (Z.to_nat (i64 n)))) false)
            else Panic "makeslice: len out of range"
        | _ => ill
        end
    | _, _ => ill
    end)).

(** Variables declared in a block are gone behind it. *)
Definition leave (env env' : genv) : genv := skipn (length env' - length env) env'.

(** Statements, in programs of kind [M] (decoders or encoders); [call] runs a call of a
    method and gives its results.  The result of a statement is the variables and, if it
    returned, what it returned.  The bound of a loop is evaluated once: it is a number, or a
    variable that the body does not assign to. *)
Fixpoint loop {M : Type -> Type} (ret : forall A, A -> M A) (bind : forall A B, M A -> (A -> M B) -> M B)
    (body : nat -> genv -> M (genv * option gval)%type) (n i : nat) (env : genv) : M (genv * option gval)%type :=
  match n with
  | O => ret _ (env, None)
  | S n => bind _ _ (body i env) (fun '(env, r) =>
             match r with Some v => ret _ (env, Some v) | None => loop ret bind body n (S i) env end)
  end.
Definition lift {M : Type -> Type} (ret : forall A, A -> M A) (fail : forall A, string -> M A) {A} (r : res A) : M A :=
  match r with Ok a => ret _ a | Panic m => fail _ m | Err _ => fail _ "ill-typed"%string end.
Definition set_vars {M : Type -> Type} (ret : forall A, A -> M A) (bind : forall A B, M A -> (A -> M B) -> M B)
    (fail : forall A, string -> M A) (call : genv -> gexpr -> option (M (genv * list gval)%type))
    (E : types) (env : genv) (l : list gexpr) (r : gexpr) : M genv :=
  match call env r with
  | Some p => bind _ _ p (fun '(env, vs) => lift ret fail (store_all E env l vs))
  | None =>
      lift ret fail
        match r, l with
        | EMake T n, [a] => make_slice E env a T n
        | _, _ => rbind (eval E env r) (fun v => store_all E env l [v])
        end
  end.
Fixpoint exec {M : Type -> Type} (ret : forall A, A -> M A) (bind : forall A B, M A -> (A -> M B) -> M B)
    (fail : forall A, string -> M A) (call : genv -> gexpr -> option (M (genv * list gval)%type))
    (E : types) (env : genv) (s : gstmt) : M (genv * option gval)%type :=
  let block env s := bind _ _ (exec ret bind fail call E env s) (fun '(env', r) => ret _ (leave env env', r)) in
  match s with
  | GSkip => ret _ (env, None)
  | GSeq a b => bind _ _ (exec ret bind fail call E env a) (fun '(env, r) =>
      match r with Some v => ret _ (env, Some v) | None => exec ret bind fail call E env b end)
  | GVar x t => match zero_value t with Some v => ret _ ((x, v) :: env, None) | None => fail _ "ill-typed"%string end
  | GSet l r => bind _ _ (set_vars ret bind fail call E env l r) (fun env => ret _ (env, None))
  | GIf init c a =>
      bind _ _ (match init with Some (l, r) => set_vars ret bind fail call E env l r | None => ret _ env end) (fun env =>
        match eval E env c with
        | Ok (VAt _ (RLeaf (PBool b) _)) => if b : bool then block env a else ret _ (env, None)
        | Panic m => fail _ m
        | _ => fail _ "ill-typed"%string
        end)
  | GIfElse c a b =>
      match eval E env c with
      | Ok (VAt _ (RLeaf (PBool x) _)) => if x : bool then block env a else block env b
      | Panic m => fail _ m
      | _ => fail _ "ill-typed"%string
      end
  | GFor x n a =>
      match eval E env n with
      | Ok (VAt _ (RLeaf (PInt n) _)) =>
          loop ret bind (fun i env =>
            bind _ _ (exec ret bind fail call E ((x, of_prim (PInt (Z.of_nat i))) :: env) a)
              (fun '(env', r) => ret _ (leave env env', r))) (Z.to_nat n) 0 env
      | Panic m => fail _ m
      | _ => fail _ "ill-typed"%string
      end
  | GReturn a => lift ret fail (rbind (eval E env a) (fun v => Ok (env, Some v)))
  end.

(** Calls of the Encoder's methods and of MarshalABI, which [mar] runs.  A method of [T] can be
    called on a [*T]. *)
Definition call_write (mar : gtype -> rval -> wr) (E : types) (env : genv) (r : gexpr) : option (enc (genv * list gval)) :=
  match r with
  | ECall1 (ESel a m) b =>
      match eval E env a with
      | Ok VCodec =>
          match method_kind "Write" m with
          | Some k => Some match eval E env b with
                           | Ok (VAt _ (RLeaf p _)) =>
                               if kind_dec (kind_of p) k then err <~~ write_builtin p ;; ERet (env, [VErr err]) else EPanic "ill-typed"
                           | Panic m => EPanic m
                           | _ => EPanic "ill-typed"
                           end
          | None => None
          end
      | Ok (VAt t x) =>
          if same_text m (str "MarshalABI") then
            Some match eval E env b with
                 | Ok VCodec =>
                     match t, x with
                     | TPtr t, RPtr (Some y) => err <~~ mar t y ;; ERet (env, [VErr err])
                     | TPtr _, RPtr None => EPanic "nil pointer dereference"
                     | t, x => err <~~ mar t x ;; ERet (env, [VErr err])
                     end
                 | _ => EPanic "ill-typed"
                 end
          else None
      | Panic m => Some (EPanic m)
      | _ => None
      end
  | _ => None
  end.
(** Calls of the Decoder's methods and of UnmarshalABI, which changes what it is called on. *)
Definition call_read (unm : gtype -> rval -> io rval) (E : types) (env : genv) (r : gexpr) : option (dec (genv * list gval)) :=
  match r with
  | ECall0 (ESel a m) =>
      match eval E env a with
      | Ok VCodec =>
          match method_kind "Read" m with
          | Some KGoBytes | None => None
          | Some k => Some ('(p, err) <-- read_prim (zero_prim k) ;; DRet (env, [of_prim p; VErr err]))
          end
      | _ => None
      end
  | ECall1 (ESel a m) b =>
      match eval E env a with
      | Ok (VAt t x) =>
          if same_text m (str "UnmarshalABI") then
            let done y err := match put E env a y with
                              | Ok env => DRet (env, [VErr err])
                              | Panic m => DPanic m
                              | Err _ => DPanic "ill-typed"
                              end in
            Some match eval E env b with
                 | Ok VCodec =>
                     match t, x with
                     | TPtr t, RPtr (Some y) => '(y, err) <-- unm t y ;; done (RPtr (Some y)) err
                     | TPtr _, RPtr None => DPanic "nil pointer dereference"
                     | t, x => '(x, err) <-- unm t x ;; done x err
                     end
                 | _ => DPanic "ill-typed"
                 end
          else None
      | Panic m => Some (DPanic m)
      | _ => None
      end
  | _ => None
  end.

(** A function called on a struct: [names] and [types] of its fields, and the values they hold. *)
Definition receiver (fs : list (ident * gtype)) (l : list rval) : gval :=
  VFields (map (fun '((x, t), v) => (x, (t, v))) (combine fs l)).
Definition run_marshal (mar : gtype -> rval -> wr) (E : types) (f : gfunc) (fs : list (ident * gtype)) (l : list rval) : wr :=
  r <~~ exec (fun A a => ERet a) (fun A B => @ebind A B) (fun A => @EPanic A) (call_write mar E) E
          [(g_param f, VCodec); (g_recv f, receiver fs l)] (g_body f) ;;
  match r with
  | (_, Some (VErr err)) => ERet err
  | _ => EPanic "missing return"
  end.
Definition run_unmarshal (unm : gtype -> rval -> io rval) (E : types) (f : gfunc) (fs : list (ident * gtype)) (l : list rval) : io (list rval) :=
  r <-- exec (fun A a => DRet a) (fun A B => @dbind A B) (fun A => @DPanic A) (call_read unm E) E
          [(g_param f, VCodec); (g_recv f, receiver fs l)] (g_body f) ;;
  match r with
  | (env, Some (VErr err)) =>
      match lookup (g_recv f) env with
      | Some (VFields fs) => DRet (map (fun x => snd (snd x)) fs, err)
      | _ => DPanic "ill-typed"
      end
  | _ => DPanic "missing return"
  end.

(** Reading Go source: from tokens to the programs of GoLang.v, by recursive descent (Go
    specification, "Expressions", "Statements", "Function declarations").  [n] bounds the
    depth of the recursion. *)
From Verif Require Import Base Prog AbiPrim Chain Values Leaf GoStd Numbers SpecText Reflect Codegen GoLang.

Definition keywords : list string :=
  (["break"; "continue"; "fallthrough"; "return"] ++ open_keywords)%list%string.
Definition is (s : string) (t : token) : bool := if token_dec t (sign s) then true else false.
(** What a word stands for: decimal numbers (0 at the beginning would mean another base), and names. *)
Definition dec_digit (c : byte) : bool := (48 <=? zb c) && (zb c <=? 57).
Definition decimal (w : list byte) : bool :=
  match w with c :: r => forallb dec_digit w && (negb (Byte.eqb c x30) || match r with [] => true | _ => false end) | [] => false end.
Definition a_name (w : list byte) : bool :=
  negb (one_of w keywords) && match w with c :: _ => negb (dec_digit c) | [] => false end.
(** The tokens up to a sign, and those behind it. *)
Fixpoint until (s : string) (ts : list token) : option (list token * list token) :=
  match ts with
  | [] => None
  | t :: ts => if is s t then Some ([], ts) else match until s ts with Some (a, b) => Some (t :: a, b) | None => None end
  end.
(** The next token is the given sign. *)
Definition expect {A} (s : string) (ts : list token) (k : list token -> option A) : option A :=
  match ts with t :: ts => if is s t then k ts else None | [] => None end.
Definition expect_word {A} (s : string) (ts : list token) (k : list token -> option A) : option A :=
  match ts with Word w :: ts => if same_text w (str s) then k ts else None | _ => None end.
Definition some_word {A} (ts : list token) (k : ident -> list token -> option A) : option A :=
  match ts with Word w :: ts => if a_name w then k w ts else None | _ => None end.

Definition bind_opt {A B} (o : option A) (k : A -> option B) : option B := match o with Some a => k a | None => None end.
Fixpoint p_expr (n : nat) (ts : list token) : option (gexpr * list token) :=
  match n with
  | O => None
  | S n =>
      bind_opt (p_unary n ts) (fun '(a, ts) =>
        match ts with
        | t :: r => if is "!=" t then bind_opt (p_unary n r) (fun '(b, ts) => Some (ENe a b, ts)) else Some (a, ts)
        | [] => Some (a, ts)
        end)
  end
with p_unary (n : nat) (ts : list token) : option (gexpr * list token) :=
  match n with
  | O => None
  | S n =>
      match ts with
      | t :: r =>
          if is "*" t then bind_opt (p_unary n r) (fun '(a, ts) => Some (EStar a, ts))
          else if is "&" t then bind_opt (p_unary n r) (fun '(a, ts) => Some (EAddr a, ts))
          else p_primary n ts
      | [] => None
      end
  end
with p_primary (n : nat) (ts : list token) : option (gexpr * list token) :=
  match n with
  | O => None
  | S n =>
      match ts with
      | Quote s :: ts => p_suffix n (EStr s) ts
      | Word w :: ts =>
          if same_text w (str "make") then
            expect "(" ts (fun ts => expect "[" ts (fun ts => expect "]" ts (fun ts =>
              bind_opt (until "," ts) (fun '(t, ts) => bind_opt (p_expr n ts) (fun '(a, ts) =>
                expect ")" ts (fun ts => p_suffix n (EMake t a) ts))))))
          else if decimal w then p_suffix n (ENum (dec_val w)) ts
          else if a_name w then p_suffix n (EVar w) ts
          else None
      | t :: ts =>
          if is "(" t then bind_opt (p_expr n ts) (fun '(a, ts) => expect ")" ts (fun ts => p_suffix n (EParen a) ts)) else None
      | [] => None
      end
  end
with p_suffix (n : nat) (a : gexpr) (ts : list token) : option (gexpr * list token) :=
  match n with
  | O => None
  | S n =>
      match ts with
      | t :: r =>
          if is "." t then some_word r (fun x ts => p_suffix n (ESel a x) ts)
          else if is "[" t then bind_opt (p_expr n r) (fun '(i, ts) => expect "]" ts (fun ts => p_suffix n (EIndex a i) ts))
          else if is "(" t then
            match r with
            | t' :: r' =>
                if is ")" t' then p_suffix n (ECall0 a) r'
                else bind_opt (p_expr n r) (fun '(b, ts) => expect ")" ts (fun ts => p_suffix n (ECall1 a b) ts))
            | [] => None
            end
          else Some (a, ts)
      | [] => Some (a, ts)
      end
  end.
(** a, b, ... = r, the first expression being read already *)
Fixpoint p_rest (n : nat) (ts : list token) : option (list gexpr * gexpr * list token) :=
  match n with
  | O => None
  | S n =>
      match ts with
      | t :: ts =>
          if is "=" t then bind_opt (p_expr n ts) (fun '(r, ts) => Some ([], r, ts))
          else if is "," t then
            bind_opt (p_expr n ts) (fun '(a, ts) => bind_opt (p_rest n ts) (fun '(l, r, ts) => Some (a :: l, r, ts)))
          else None
      | [] => None
      end
  end.
Fixpoint p_stmt (n : nat) (ts : list token) : option (gstmt * list token) :=
  match n with
  | O => None
  | S n =>
      let plain := bind_opt (p_expr n ts) (fun '(a, ts) => bind_opt (p_rest n ts) (fun '(l, r, ts) =>
        expect ";" ts (fun ts => Some (GSet (a :: l) r, ts)))) in
      match ts with
      | Word w :: ts =>
          if same_text w (str "var") then
            some_word ts (fun x ts => bind_opt (until ";" ts) (fun '(t, ts) => Some (GVar x t, ts)))
          else if same_text w (str "return") then
            bind_opt (p_expr n ts) (fun '(a, ts) => expect ";" ts (fun ts => Some (GReturn a, ts)))
          else if same_text w (str "if") then
            bind_opt (p_expr n ts) (fun '(c, ts) =>
              match ts with
              | t :: r =>
                  if is "{" t then
                    bind_opt (p_block n r) (fun '(a, ts) => expect "}" ts (fun ts =>
                      match ts with
                      | t :: r =>
                          if is ";" t then Some (GIf None c a, r)
                          else expect_word "else" ts (fun ts => expect "{" ts (fun ts =>
                                 bind_opt (p_block n ts) (fun '(b, ts) => expect "}" ts (fun ts => expect ";" ts (fun ts => Some (GIfElse c a b, ts))))))
                      | [] => None
                      end))
                  else
                    bind_opt (p_rest n ts) (fun '(l, r, ts) => expect ";" ts (fun ts =>
                      bind_opt (p_expr n ts) (fun '(d, ts) => expect "{" ts (fun ts =>
                        bind_opt (p_block n ts) (fun '(a, ts) => expect "}" ts (fun ts => expect ";" ts (fun ts => Some (GIf (Some (c :: l, r)) d a, ts))))))))
              | [] => None
              end)
          else if same_text w (str "for") then
            some_word ts (fun x ts => expect ":=" ts (fun ts => expect_word "0" ts (fun ts => expect ";" ts (fun ts =>
              some_word ts (fun y ts => expect "<" ts (fun ts => bind_opt (p_expr n ts) (fun '(b, ts) => expect ";" ts (fun ts =>
                some_word ts (fun z ts => expect "++" ts (fun ts => expect "{" ts (fun ts =>
                  bind_opt (p_block n ts) (fun '(a, ts) => expect "}" ts (fun ts => expect ";" ts (fun ts =>
                    if same_text y x && same_text z x then Some (GFor x b a, ts) else None))))))))))))))
          else plain
      | _ => plain
      end
  end
(** Statements up to a closing brace. *)
with p_block (n : nat) (ts : list token) : option (gstmt * list token) :=
  match n with
  | O => None
  | S n =>
      match ts with
      | t :: _ =>
          if is "}" t then Some (GSkip, ts)
          else bind_opt (p_stmt n ts) (fun '(a, ts) =>
                 match ts with
                 | t :: _ => if is "}" t then Some (a, ts) else bind_opt (p_block n ts) (fun '(b, ts) => Some (GSeq a b, ts))
                 | [] => None
                 end)
      | [] => None
      end
  end.
Definition p_func (n : nat) (ts : list token) : option (gfunc * list token) :=
  expect_word "func" ts (fun ts => expect "(" ts (fun ts => some_word ts (fun recv ts =>
    let '(ptr, ts) := match ts with t :: r => if is "*" t then (true, r) else (false, ts) | [] => (false, ts) end in
    some_word ts (fun type ts => expect ")" ts (fun ts => some_word ts (fun name ts => expect "(" ts (fun ts => some_word ts (fun param ts =>
      expect "*" ts (fun ts => expect_word "abi" ts (fun ts => expect "." ts (fun ts => some_word ts (fun ptype ts => expect ")" ts (fun ts =>
        expect_word "error" ts (fun ts => expect "{" ts (fun ts => bind_opt (p_block n ts) (fun '(body, ts) =>
          expect "}" ts (fun ts => expect ";" ts (fun ts =>
            Some ({| g_recv := recv; g_ptr := ptr; g_type := type; g_name := name; g_param := param; g_ptype := ptype; g_body := body |}, ts))))))))))))))))))).
Fixpoint p_file (n : nat) (ts : list token) : option (list gfunc) :=
  match ts, n with
  | [], _ => Some []
  | _, O => None
  | ts, S n => bind_opt (p_func n ts) (fun '(f, ts) => bind_opt (p_file n ts) (fun l => Some (f :: l)))
  end.
Definition parse (text : list byte) : option (list gfunc) :=
  bind_opt (tokens_of text) (fun ts => p_file (3 * length ts + 10) ts).

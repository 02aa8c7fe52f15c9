(** Specification of regexes: the sets of characters, the regular language,
    the textual form, and the token sequence of a regex. *)
From Verif Require Import Base RegexModel.

(** ** Character sets *)
Section Sets.
  Context {env : Env}.

  Definition digit_char (c : char) : Prop := (48 <= c <= 57)%N.
  Definition space_char (c : char) : Prop :=
    In c [9; 10; 11; 12; 13; 32; 0x85; 0xA0; 0x1680; 0x2000; 0x2001; 0x2002; 0x2003; 0x2004; 0x2005;
          0x2006; 0x2007; 0x2008; 0x2009; 0x200A; 0x2028; 0x2029; 0x202F; 0x205F; 0x3000]%N.
  Definition word_char (c : char) : Prop := is_alphabetic c = true.

  Definition class_set (k : class_kind) (c : char) : Prop :=
    match k with
    | CWildcard => True
    | CWord => word_char c
    | CWhitespace => space_char c
    | CDigit => digit_char c
    | CNonWord => ~ word_char c
    | CNonDigit => ~ digit_char c
    | CNonWhitespace => ~ space_char c
    end.

  Definition glit_set (g : glit) (c : char) : Prop :=
    match g with
    | GMatch m => c = m
    | GClass k => class_set k c
    | GRange a b => (a <= c <= b)%N
    end.

  Definition lit_set (l : lit) (c : char) : Prop :=
    match l with
    | LMatch m => c = m
    | LClass k => class_set k c
    | LGroup false gs => exists g, In g gs /\ glit_set g c
    | LGroup true gs => ~ exists g, In g gs /\ glit_set g c
    end.
End Sets.

(** ** Regular languages *)

(** How often a quantifier lets its operand occur. *)
Definition allowed (q : quant) (n : nat) : Prop :=
  match q with
  | QAsterisk => True
  | QPlus => 1 <= n
  | QQuestion => n <= 1
  | QMax m => N.of_nat n = m
  | QMin m => (m <= N.of_nat n)%N
  | QRange a b => (a <= N.of_nat n <= b)%N
  end.

Definition lang_cat (L1 L2 : list char -> Prop) (w : list char) : Prop :=
  exists u v, w = u ++ v /\ L1 u /\ L2 v.

Fixpoint lang_pow (L : list char -> Prop) (n : nat) : list char -> Prop :=
  match n with
  | 0 => fun w => w = []
  | S n' => lang_cat L (lang_pow L n')
  end.

Definition lang_quant (q : option quant) (L : list char -> Prop) (w : list char) : Prop :=
  match q with
  | None => L w
  | Some q => exists n, allowed q n /\ lang_pow L n w
  end.

Fixpoint lang {env : Env} (e : expr) : list char -> Prop :=
  match e with
  | EConcat es =>
      (fix go (es : list expr) : list char -> Prop :=
         match es with
         | [] => fun w => w = []
         | e :: es' => lang_cat (lang e) (go es')
         end) es
  | EEmpty => fun w => w = []
  | EAlt l r => fun w => lang l w \/ lang r w
  | ELit l q => lang_quant q (fun w => exists c, w = [c] /\ lit_set l c)
  | EGroup e q => lang_quant q (lang e)
  end.

(** ** Textual form (regex/tests/proptest.rs:9-130) *)

(** Decimal numerals, through the standard library. *)
Fixpoint uint_chars (d : Decimal.uint) : list char :=
  match d with
  | Decimal.Nil => []
  | Decimal.D0 d => 48%N :: uint_chars d
  | Decimal.D1 d => 49%N :: uint_chars d
  | Decimal.D2 d => 50%N :: uint_chars d
  | Decimal.D3 d => 51%N :: uint_chars d
  | Decimal.D4 d => 52%N :: uint_chars d
  | Decimal.D5 d => 53%N :: uint_chars d
  | Decimal.D6 d => 54%N :: uint_chars d
  | Decimal.D7 d => 55%N :: uint_chars d
  | Decimal.D8 d => 56%N :: uint_chars d
  | Decimal.D9 d => 57%N :: uint_chars d
  end.
Definition print_dec (n : N) : list char := uint_chars (N.to_uint n).

(** proptest.rs:9-14. *)
Definition special_chars : list char := str "[]()^|-*+?{}."%string.

(** proptest.rs:16-26. *)
Definition print_char (c : char) : list char :=
  if existsb (N.eqb c) special_chars then [$"\"; c]
  else if (c =? $"\")%N then [$"\"; $"\"]
  else if (c =? 0)%N then [$"\"; $"0"]
  else [c].

(** proptest.rs:28-49. *)
Definition print_quant (q : quant) : list char :=
  match q with
  | QAsterisk => [$"*"]
  | QPlus => [$"+"]
  | QQuestion => [$"?"]
  | QMax m => [$"{"] ++ print_dec m ++ [$"}"]
  | QMin m => [$"{"] ++ print_dec m ++ [$","; $"}"]
  | QRange a b => [$"{"] ++ print_dec a ++ [$","] ++ print_dec b ++ [$"}"]
  end.

Definition print_oquant (q : option quant) : list char :=
  match q with Some q => print_quant q | None => [] end.

(** proptest.rs:51-65. *)
Definition print_class (k : class_kind) : list char :=
  match k with
  | CWildcard => [$"."]
  | CWord => [$"\"; $"w"]
  | CWhitespace => [$"\"; $"s"]
  | CDigit => [$"\"; $"d"]
  | CNonWord => [$"\"; $"W"]
  | CNonDigit => [$"\"; $"D"]
  | CNonWhitespace => [$"\"; $"S"]
  end.

(** proptest.rs:67-76. *)
Definition print_glit (g : glit) : list char :=
  match g with
  | GMatch c => print_char c
  | GClass k => print_class k
  | GRange a b => print_char a ++ [$"-"] ++ print_char b
  end.

(** proptest.rs:78-99. *)
Definition print_lit (l : lit) : list char :=
  match l with
  | LMatch c => print_char c
  | LClass k => print_class k
  | LGroup negated gs =>
      [$"["] ++ (if negated then [$"^"] else []) ++ flat_map print_glit gs ++ [$"]"]
  end.

(** proptest.rs:101-130. *)
Fixpoint print_expr (e : expr) : list char :=
  match e with
  | EConcat es => flat_map print_expr es
  | EEmpty => []
  | EAlt l r => print_expr l ++ [$"|"] ++ print_expr r
  | ELit l q => print_lit l ++ print_oquant q
  | EGroup e q => [$"("] ++ print_expr e ++ [$")"] ++ print_oquant q
  end.

(** ** The documented grammar (ast.rs:5-14) as a shape of trees: what
    proptest.rs:161-233 generates, without its size limits. *)

Definition u32 (n : N) : Prop := (n < 4294967296)%N.

Definition quant_ok (q : option quant) : Prop :=
  match q with
  | Some (QMax m) | Some (QMin m) => u32 m
  | Some (QRange a b) => u32 a /\ u32 b
  | _ => True
  end.

Inductive is_expr : expr -> Prop :=
| is_expr_sub e : is_sub e -> is_expr e
| is_expr_alt l r : is_sub l -> is_expr r -> is_expr (EAlt l r)
with is_sub : expr -> Prop :=
| is_sub_one e : is_item e -> is_sub e
| is_sub_many e1 e2 es : is_item e1 -> is_item e2 -> is_items es -> is_sub (EConcat (e1 :: e2 :: es))
with is_items : list expr -> Prop :=
| is_items_nil : is_items []
| is_items_cons e es : is_item e -> is_items es -> is_items (e :: es)
with is_item : expr -> Prop :=
| is_item_lit l q : quant_ok q -> is_item (ELit l q)
| is_item_group e q : is_expr e -> quant_ok q -> is_item (EGroup e q).

(** A whole pattern is a regex of the grammar or the empty text. *)
Definition is_pattern (e : expr) : Prop := e = EEmpty \/ is_expr e.

(** ** Token sequences *)

Definition glit_tokens (g : glit) : list token_kind :=
  match g with
  | GMatch c => [TMatch c]
  | GClass k => [TClass k]
  | GRange a b => [TMatch a; TOp OMinus; TMatch b]
  end.

Definition lit_tokens (l : lit) : list token_kind :=
  match l with
  | LMatch c => [TMatch c]
  | LClass k => [TClass k]
  | LGroup negated gs =>
      [TOp OLBracket] ++ (if negated then [TOp OCarret] else []) ++ flat_map glit_tokens gs
      ++ [TOp ORBracket]
  end.

Definition oquant_tokens (q : option quant) : list token_kind :=
  match q with Some q => [TQuant q] | None => [] end.

(** The tokens a regex is written with. *)
Fixpoint expr_tokens (e : expr) : list token_kind :=
  match e with
  | EConcat es => flat_map expr_tokens es
  | EEmpty => []
  | EAlt l r => expr_tokens l ++ [TOp OVertical] ++ expr_tokens r
  | ELit l q => lit_tokens l ++ oquant_tokens q
  | EGroup e q => [TOp OLParen] ++ expr_tokens e ++ [TOp ORParen] ++ oquant_tokens q
  end.

(** Kinds of a token stream that never panicked. *)
Fixpoint stream_kinds (l : list titem) : option (list token_kind) :=
  match l with
  | [] => Some []
  | TokPanic :: _ => None
  | Tok t :: r => match stream_kinds r with Some ks => Some (tk_kind t :: ks) | None => None end
  end.

(** ** Numbers written in decimal *)

(** Value of a list of digit characters. *)
Definition dec_value (ds : list char) : N := fold_left (fun n d => n * 10 + (d - 48))%N ds 0%N.
Definition dec_string (ds : list char) : Prop := ds <> [] /\ Forall digit_char ds.

(** Value of a hexadecimal digit. *)
Definition hex_digit (c d : N) : Prop :=
  (48 <= c <= 57 /\ d = c - 48)%N \/ (97 <= c <= 102 /\ d = c - 87)%N \/ (65 <= c <= 70 /\ d = c - 55)%N.
Definition is_hex (c : char) : Prop := exists d, hex_digit c d.
(** Unicode scalar values. *)
Definition scalar (n : N) : Prop := (n < 0xD800 \/ 0xE000 <= n <= 0x10FFFF)%N.

(** ** Shapes of token sequences and texts *)

(** Consecutive spans that cover [p, n). *)
Inductive spans_tile : nat -> nat -> list (nat * nat) -> Prop :=
| spans_nil p : spans_tile p p []
| spans_cons p e n l : p < e -> spans_tile e n l -> spans_tile p n ((p, e) :: l).

Definition count_kind (P : token_kind -> bool) (ks : list token_kind) : nat := length (filter P ks).
Definition is_open (k : token_kind) : bool := match k with TOp OLParen => true | _ => false end.
Definition is_close (k : token_kind) : bool := match k with TOp ORParen => true | _ => false end.

(** Every closing parenthesis has an opening one before it. *)
Definition balanced (ks : list token_kind) : Prop :=
  forall u v, ks = u ++ v -> count_kind is_close u <= count_kind is_open u.

(** An alternative without content: a [|] or [)] at the very start, or
    directly after a [(] or [|]. *)
Definition is_opener (k : token_kind) : Prop := k = TOp OLParen \/ k = TOp OVertical.
Definition is_closer (k : token_kind) : Prop := k = TOp ORParen \/ k = TOp OVertical.
Definition empty_alternative (ks : list token_kind) : Prop :=
  (exists k r, ks = k :: r /\ is_closer k) \/
  (exists u k1 k2 v, ks = u ++ k1 :: k2 :: v /\ is_opener k1 /\ is_closer k2).

(** The text contains a digit string whose value is one of the four numbers
    2^32 .. 2^32+3. *)
Definition window_number (w : list char) : Prop :=
  exists u ds v, w = u ++ ds ++ v /\ dec_string ds /\ (4294967296 <= dec_value ds <= 4294967299)%N.

(** A text with every special character escaped. *)
Definition escape_text (w : list char) : list char := flat_map print_char w.

(** Digit strings that do not run through the window. *)
Definition clear_digits (ds : list char) : Prop :=
  forall u v, ds = u ++ v -> ~ (4294967296 <= dec_value u <= 4294967299)%N.

(** The number a digit string denotes, if it fits. *)
Definition fits (ds : list char) : option N :=
  if (dec_value ds <? 4294967296)%N then Some (dec_value ds) else None.

(** The next character of the text, if any, is no hexadecimal digit. *)
Definition no_hex_next (rest : list char) : Prop :=
  match rest with [] => True | c :: _ => ~ is_hex c end.

(** Value of a list of hexadecimal digits, after [n]. *)
Definition hex_value (n : N) (ds : list N) : N := fold_left (fun n d => n * 16 + d)%N ds n.

(** A concrete environment for examples: ASCII letters, with or without
    overflow checks. *)
Definition ascii_env (checks : bool) : Env :=
  {| is_alphabetic := fun c => ((65 <=? c) && (c <=? 90) || (97 <=? c) && (c <=? 122))%N;
     overflow_checks := checks |}.

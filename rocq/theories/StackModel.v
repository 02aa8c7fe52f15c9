(** Adding a pattern with a limited call stack.

    The functions of regex/parser.rs call each other recursively, always
    through [expression]; [Compiler::expr] calls itself.  Here they take the
    number of nested calls of [expression] (of [expr]) there is room for, and
    [KOver] is the stack overflow that aborts the process.  Between two nested
    calls of [expression] lie at most the frames of [sub_expression],
    [sub_expression_item] and [group]; all other calls ([match_] and below,
    the token stream, [NfaBuilder]) do not nest, so the stack in bytes is the
    number of nested calls times a constant.  The loops of [sub_expression]
    and [character_group] use no stack; their fuel is the number of tokens. *)
From Verif Require Import Base RegexModel NfaModel LexerModel.

Inductive kres (A : Type) : Type := KRet (r : A) | KOver.
Arguments KRet {A} r.
Arguments KOver {A}.

Definition kbind {A B} (x : kres (pres A)) (f : A -> pstate -> kres (pres B)) : kres (pres B) :=
  match x with
  | KRet (POk a s) => f a s
  | KRet (PErr e) => KRet (PErr e)
  | KRet PPanic => KRet PPanic
  | KRet PFuel => KRet PFuel
  | KOver => KOver
  end.

Definition k_peek {A} (s : pstate) (k : option token -> kres (pres A)) : kres (pres A) :=
  match ps_toks s with
  | [] => k None
  | Tok t :: _ => k (Some t)
  | TokPanic :: _ => KRet PPanic
  end.
Definition k_next {A} (s : pstate) (k : option token -> pstate -> kres (pres A)) : kres (pres A) :=
  match ps_toks s with
  | [] => k None {| ps_toks := []; ps_cur := None |}
  | Tok t :: r => k (Some t) {| ps_toks := r; ps_cur := Some t |}
  | TokPanic :: _ => KRet PPanic
  end.

Section Inner.
  (** The nested call of [expression]. *)
  Variable call : pstate -> kres (pres expr).

  (** parser.rs:176-221 [group]. *)
  Definition k_group (s : pstate) : kres (pres expr) :=
    k_next s (fun o s1 =>
      match o with
      | Some {| tk_kind := TOp OLParen |} =>
          kbind (call s1) (fun e s2 =>
            k_next s2 (fun o2 s3 =>
              match o2 with
              | Some {| tk_kind := TOp ORParen |} =>
                  KRet (pbind (p_quantifier s3) (fun q s4 => POk (EGroup e q) s4))
              | _ => KRet (p_err_here PRightParan s3)
              end))
      | _ => KRet (p_err_here PLeftParan s1)
      end).

  (** parser.rs:161-173 [sub_expression_item]. *)
  Definition k_item (s : pstate) : kres (pres expr) :=
    k_peek s (fun o =>
      match o with
      | None => KRet (p_err_here PTokenForSubExpression s)
      | Some {| tk_kind := TOp OLParen |} => k_group s
      | Some _ => KRet (p_match (S (length (ps_toks s))) s)
      end).

  (** parser.rs:145-157, the loop of [sub_expression]. *)
  Fixpoint k_loop (n : nat) (acc : list expr) (s : pstate) : kres (pres (list expr)) :=
    match n with
    | 0 => KRet PFuel
    | S n' =>
        k_peek s (fun o =>
          match o with
          | None => KRet (POk acc s)
          | Some {| tk_kind := TOp OVertical |} => KRet (POk acc s)
          | Some {| tk_kind := TOp ORParen |} => KRet (POk acc s)
          | Some _ => kbind (k_item s) (fun e s' => k_loop n' (acc ++ [e]) s')
          end)
    end.

  (** parser.rs:137-144 [sub_expression]. *)
  Definition k_sub (s : pstate) : kres (pres (list expr)) :=
    k_peek s (fun o =>
      match o with
      | None => KRet (p_err_here PSubExpression s)
      | Some _ => k_loop (S (length (ps_toks s))) [] s
      end).
End Inner.

(** parser.rs:113-134 [expression], with room for [d] nested calls. *)
Fixpoint k_expression (d : nat) (s : pstate) : kres (pres expr) :=
  match d with
  | 0 => KOver
  | S d' =>
      kbind (k_sub (k_expression d') s) (fun lhs s1 =>
        k_peek s1 (fun o =>
          match o with
          | Some {| tk_kind := TOp OVertical |} =>
              k_next s1 (fun _ s2 =>
                kbind (k_expression d' s2) (fun rhs s3 => KRet (POk (EAlt (concat_of lhs) rhs) s3)))
          | _ => KRet (POk (concat_of lhs) s1)
          end))
  end.

(** parser.rs:86-110 [Parser::new] and [parse]. *)
Definition k_parse {env : Env} (d : nat) (w : list char) : kres (res parse_result) :=
  let s := {| ps_toks := tokens_of w; ps_cur := None |} in
  match k_peek s (fun o => match o with None => KRet (POk EEmpty s) | Some _ => k_expression d s end) with
  | KRet (POk e _) => KRet (Val (ParseOk e))
  | KRet (PErr errs) => KRet (Val (ParseErr errs))
  | KRet PPanic => KRet Panic
  | KRet PFuel => KRet Diverge
  | KOver => KOver
  end.

Definition cbind {A B} (x : kres (res A)) (f : A -> kres (res B)) : kres (res B) :=
  match x with
  | KRet (Val a) => f a
  | KRet Panic => KRet Panic
  | KRet Diverge => KRet Diverge
  | KOver => KOver
  end.

(** compiler.rs:90-143 [expr], with room for [d] nested calls. *)
Fixpoint k_compile (d : nat) (e : expr) (b : nfa) (s t : nat) : kres (res nfa) :=
  match d with
  | 0 => KOver
  | S d' =>
      match e with
      | EConcat es =>
          (fix go (es : list expr) (b : nfa) (cur : nat) {struct es} : kres (res nfa) :=
             match es with
             | [] => KRet Panic
             | e :: rest =>
                 match rest with
                 | [] => k_compile d' e b cur t
                 | _ :: _ =>
                     let '(b1, n) := add_state b false in
                     cbind (k_compile d' e b1 cur n) (fun b2 => go rest b2 n)
                 end
             end) es b s
      | EEmpty => KRet (add_transition b s t IEps)
      | EAlt l r => cbind (k_compile d' l b s t) (fun b1 => k_compile d' r b1 s t)
      | ELit l None => KRet (add_transition b s t (ILit l))
      | ELit l (Some q) =>
          cbind (KRet (insert_quantifier_state b q s t)) (fun x => KRet (add_transition (fst x) (snd x) (snd x) (ILit l)))
      | EGroup e None => k_compile d' e b s t
      | EGroup e (Some q) =>
          cbind (KRet (insert_quantifier_state b q s t)) (fun x => k_compile d' e (fst x) (snd x) (snd x))
      end
  end.

(** lexer/mod.rs:212-226 [add_token], with room for [d] nested calls in the
    parser and then in the compiler. *)
Definition k_add_token {env : Env} {K} (d : nat) (lg : lexgen K) (w : list char) (g : generator K)
    : kres (res (lexgen K + list perr)) :=
  let '(c1, f) := new_final (lg_compiler lg) in
  cbind (k_parse d w) (fun p =>
    match p with
    | ParseErr errs => KRet (Val (inr errs))
    | ParseOk e =>
        cbind (k_compile d e (co_nfa c1) (nfa_start (co_nfa c1)) (co_final c1)) (fun b =>
          KRet (Val (inl {| lg_compiler := {| co_nfa := b; co_final := co_final c1 |}; lg_tokens := lg_tokens lg ++ [(f, g)] |})))
    end).

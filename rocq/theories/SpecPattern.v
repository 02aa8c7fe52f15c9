(** Specification of the patterns the regex parser takes: the documented
    grammar, except that an alternative may be empty. *)
From Verif Require Import Base RegexModel SpecRegex.

Inductive loose_expr : expr -> Prop :=
| loose_expr_sub e : loose_sub e -> loose_expr e
| loose_expr_alt l r : loose_sub l -> loose_expr r -> loose_expr (EAlt l r)
with loose_sub : expr -> Prop :=
| loose_sub_none : loose_sub (EConcat [])
| loose_sub_one e : loose_item e -> loose_sub e
| loose_sub_many e1 e2 es : loose_item e1 -> loose_item e2 -> loose_items es ->
    loose_sub (EConcat (e1 :: e2 :: es))
with loose_items : list expr -> Prop :=
| loose_items_nil : loose_items []
| loose_items_cons e es : loose_item e -> loose_items es -> loose_items (e :: es)
with loose_item : expr -> Prop :=
| loose_item_lit l q : loose_item (ELit l q)
| loose_item_group e q : loose_expr e -> loose_item (EGroup e q).

(** The tokens stop where another alternative is due. *)
Definition ends_open (ks : list token_kind) : Prop := ks = [] \/ exists u, ks = u ++ [TOp OVertical].

(** The tokens that are read as the regex [e]: nothing at all, a regex whose
    last alternative is not empty, or any regex and whatever follows it from a
    stray [)] on. *)
Inductive read_as : list token_kind -> expr -> Prop :=
| read_nothing : read_as [] EEmpty
| read_all e : loose_expr e -> ~ ends_open (expr_tokens e) -> read_as (expr_tokens e) e
| read_stray e rest : loose_expr e -> read_as (expr_tokens e ++ TOp ORParen :: rest) e.

(** From pattern text to verdict: C58. *)
From Verif Require Import Examples Classical.

(** C58.  [re], [lang]: regular expressions in the classical sense and their
    languages; [written]: as a pattern; [in_lang]: the texts of the language, up
    to the case of letters if [icase] is set. *)
Theorem C58_match : forall e fl ct s,
  exists n res, parse (written e) = P_ok n /\ regex_match (mk_regex n fl) ct s = Returned res
    /\ (matched res = true <-> in_lang e fl s).
Proof. exact classical_match. Qed.
Print Assumptions C58_match.

Theorem C58_match_prefix : forall e fl ct s,
  exists n res, parse (written e) = P_ok n /\ regex_match_prefix (mk_regex n fl) ct s = Returned res
    /\ (matched res = true -> exists u q, s = u ++ q /\ in_lang e fl u /\ group0 (groups res) = Some (0, length u))
    /\ (matched res = false -> forall u q, s = u ++ q -> ~ in_lang e fl u).
Proof. exact classical_prefix. Qed.
Print Assumptions C58_match_prefix.

Theorem C58_search : forall e fl ct s,
  exists n res, parse (written e) = P_ok n /\ regex_search (mk_regex n fl) ct s = Returned res
    /\ (matched res = true -> exists p u q, s = p ++ u ++ q /\ in_lang e fl u
          /\ group0 (groups res) = Some (length p, length p + length u)
          /\ forall p' u' q', s = p' ++ u' ++ q' -> in_lang e fl u' -> length p <= length p')
    /\ (matched res = false -> forall p u q, s = p ++ u ++ q -> ~ in_lang e fl u).
Proof. exact classical_search. Qed.
Print Assumptions C58_search.

(** A star in a star, an operand that can be empty, special characters. *)
Example C58_example :
  let e := Concat (Star (Union (Symbol "*") (Star (Concat (Symbol "a") (Symbol "|"))))) (Union Epsilon (Symbol "b")) in
  written e = str "(?:(?:(?:\*)|(?:(?:(?:a)(?:\|))*))*)(?:(?:)|(?:b))"
  /\ in_lang e [] (str "a|*a|b") /\ in_lang e [F_icase] (str "A|B")
  /\ regex_match (mk_regex (as_tree e) []) RandomAccessIt (str "A|B")
     <> regex_match (mk_regex (as_tree e) [F_icase]) RandomAccessIt (str "A|B").
Proof.
  intros e. split; [reflexivity|].
  assert (L : forall u v, lang (Star (Concat (Symbol "a") (Symbol "|"))) u -> lang (Star (Union (Symbol "*") (Star (Concat (Symbol "a") (Symbol "|"))))) v ->
    lang (Star (Union (Symbol "*") (Star (Concat (Symbol "a") (Symbol "|"))))) (u ++ v)).
  { intros u v Hu Hv. apply lang_go; [now apply lang_right|exact Hv]. }
  assert (P : lang (Star (Concat (Symbol "a") (Symbol "|"))) (str "a|")).
  { apply (lang_go _ (str "a|") []); [|constructor]. apply (lang_concat _ _ (str "a") (str "|")); constructor. }
  split; [|split].
  - exists (str "a|*a|b"). split; [|repeat constructor].
    apply (lang_concat _ _ (str "a|*a|") (str "b")); [|apply lang_right; constructor].
    apply (L (str "a|") (str "*a|") P). apply (lang_go _ (str "*") (str "a|")); [apply lang_left; constructor|].
    apply (L (str "a|") [] P). constructor.
  - exists (str "a|b"). split.
    + apply (lang_concat _ _ (str "a|") (str "b")); [|apply lang_right; constructor]. apply (L (str "a|") [] P). constructor.
    + constructor; [right; split; reflexivity|]. constructor; [now left|]. constructor; [right; split; reflexivity|constructor].
  - vm_compute. discriminate.
Qed.

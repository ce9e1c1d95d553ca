(** Reading results and texts of other character types: C53, C54. *)
From Verif Require Import Examples Views Syntax Literal Viewing.

(** C53.  [denotes]: the part of the text between the ends of the capture;
    [reads_as]: content(), conversion to a string view, output, length(),
    is_empty(), operator[] and the owning copy. *)
Theorem C53_results_read_alike : forall r ct s res ly,
  usable r ct -> (N.of_nat (length s) < 2 ^ 64)%N -> gives r ct s res ->
  exists ts, length ts = S (capture_count (ast r))
  /\ Forall2 (fun v t => denotes s v t /\ reads_as ly s v t) (groups res) ts
  /\ result_stream s res = hd_error ts /\ result_string_view s res = hd_error ts
  /\ option_map (fun t => length t) (hd_error ts) = Some (result_length res)
  /\ Forall2 (fun v t => exists w, v = Some w /\ denotes s w t) (structured_binding res) ts.
Proof. exact result_reads. Qed.
Print Assumptions C53_results_read_alike.

Example C53_example :
  let r := rx "(?<y>[0-9]+)-(x)?(z*)" [] in
  let s := str "on 19-?" in
  usable r RandomAccessIt
  /\ exists res, gives r RandomAccessIt s res
    /\ map (capture_content Contiguous s) (groups res) = [Some (str "19-"); Some (str "19"); Some []; Some []]
    /\ map (capture_content Linked s) (groups res) = [Some (str "19-"); Some (str "19"); Some []; Some []]
    /\ result_stream s res = Some (str "19-") /\ capture_length Linked s (group0 (groups res)) = Some 3%N
    /\ capture_index s (group0 (groups res)) 1 = Some "9"%char.
Proof.
  intros r s. split; [show_usable|]. eexists. split; [apply of_search; vm_compute; reflexivity|].
  repeat split; vm_compute; reflexivity.
Qed.

(** length() of a view that the caller builds from any two iterators: the number
    of steps from the first to the second, modulo 2^64.  [Linked]: iterators that
    only move forward. *)
Theorem C53_length_of_any_view : forall ly s b e, ly <> Linked ->
  exists n, capture_length ly s (Some (b, e)) = Some n /\ (n < 2 ^ 64)%N
    /\ ((n + N.of_nat b) mod 2 ^ 64 = N.of_nat e mod 2 ^ 64)%N.
Proof. exact length_wraps. Qed.
Print Assumptions C53_length_of_any_view.

Example C53_length_of_any_view_example :
  Contiguous <> Linked
  /\ capture_length Contiguous (str "abcd") (Some (1, 3)) = Some 2%N
  /\ capture_length Contiguous (str "abcd") (Some (3, 1)) = Some (2 ^ 64 - 2)%N.
Proof. split; [discriminate|]. split; vm_compute; reflexivity. Qed.

(** C54, full statement: the second theorem for all texts, without the bound on
    the characters.  False of the code (finding F23): only the low eight bits
    are compared.  [wide_invoke ... false]: iterators that are not contiguous
    (the others do not compile).  [spells p t]: [p] is a pattern for the text [t]. *)
Theorem C54_calls_on_wide_texts_partial : forall mt r ct w,
  Forall (fun x => x < 256)%N w ->
  exists s, map code s = w /\ wide_invoke mt r false ct w = invoke mt r ct s.
Proof. exact wide_small. Qed.
Print Assumptions C54_calls_on_wide_texts_partial.

Theorem C54_wide_text_partial : forall p t fl ct w,
  spells p t -> ~ In F_icase fl -> Forall (fun x => x < 256)%N w ->
  exists n, parse p = P_ok n
    /\ returns (wide_invoke match_method (mk_regex n fl) false ct w)
         (fun res => matched res = true <-> w = map code t).
Proof. exact wide_text_small. Qed.
Print Assumptions C54_wide_text_partial.

(** What is compared instead. *)
Theorem C54_low_bits_only : forall p t fl ct w,
  spells p t -> ~ In F_icase fl ->
  exists n, parse p = P_ok n
    /\ returns (wide_invoke match_method (mk_regex n fl) false ct w)
         (fun res => matched res = true <-> map (fun x => x mod 256)%N w = map code t).
Proof. exact wide_text. Qed.
Print Assumptions C54_low_bits_only.

Example C54_example :
  spells (str "a\*\x2A\n}") (str "a**" ++ ["010"; "}"]%char)
  /\ Forall (fun x => x < 256)%N [97; 42; 42; 10; 125]%N
  /\ map code (str "a**" ++ ["010"; "}"]%char) = [97; 42; 42; 10; 125]%N.
Proof.
  split; [|split; [repeat constructor|reflexivity]].
  apply spell_char; [reflexivity|]. apply (spell_escape (str "\*")); [now apply ce_self|].
  apply (spell_escape (str "\x2A") (ascii_of_N (16 * 2 + 10))); [constructor; cbn; tauto|].
  apply (spell_escape (str "\n")); [apply ce_named; cbn; tauto|].
  apply spell_char; [reflexivity|]. constructor.
Qed.

(** U+0141 is taken for an A. *)
Theorem C54_wide_text_refuted : exists p t w n res,
  spells p t /\ parse p = P_ok n
  /\ wide_invoke match_method (mk_regex n []) false RandomAccessIt w = Returned res
  /\ matched res = true /\ w <> map code t.
Proof.
  exists (str "A"), (str "A"), [321%N]. do 2 eexists.
  split; [apply spell_char; [reflexivity|constructor]|]. split; [vm_compute; reflexivity|].
  split; [vm_compute; reflexivity|]. split; [reflexivity|]. vm_compute. discriminate.
Qed.
Print Assumptions C54_wide_text_refuted.

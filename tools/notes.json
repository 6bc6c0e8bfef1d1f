{
 "C06": {
  "note": "Exact on ASCII sources; the refuted theorem is the witness that it fails beyond ASCII."
 },
 "C50": {
  "note": "The premise parses each file once, in the empty store (C54 carries it to any store). OOF for every depth and fuel: the code recurses until its stack is exhausted."
 },
 "C54": {
  "note": "moved_state puts the older contents in front and shifts addresses. movable asks the same of user closures; it is a theorem for grammars without user code."
 },
 "C38": {
  "note": "plain removes the wrapping Debug matchers from the grammar and from stored matchers. debug_placed: Debug wraps consuming matchers only and is not listed by a Register (a Debug is always consuming and called Debug; C38_not_consuming_refuted is the witness). The refuted theorems are the failures the statement mentions. The printed text is not modelled."
 },
 "C47": {
  "note": "Fuel bounds both the nesting of matchers and the iterations of each loop, so C47_ends_within and C47_source_bound are bounds on both. tame, returning and never_stops are about user closures: they keep existing tokens, come back, and do not return Stop. References to registered matchers are excluded by the statement; C47_reference_refuted shows why. C47_not_eating_refuted shows that a loop whose body consumes nothing spins for 2^64-1 iterations."
 },
 "C60": {
  "note": "Faulty patterns are C64. ASCII sources (offsets are bytes and characters at once). The name given to a capture is always \"Name\" and another name refers to the whole text of its statement, as C42 and C43 show; meaning and defines say so. Imports enter C60_script through all_stated, which asks that the imported file compiles. The converse (what is accepted was written this way) is false: the grammar accepts unclosed program matchers."
 },
 "C61": {
  "note": "sound asks that every imported name is given by a statement of the imported file; importing a name that is not there is an error (C44, C53). Circular imports never end: C50."
 },
 "C62": {
  "note": "A text is broken here if, after any number of patterns and comments, something visible comes that is none of # ( < ? ! * + {. Other ways of being wrong inside a pattern are not covered."
 },
 "C63": {
  "note": "Places are described by open_script (SpecSyntax.v). After a head whose version is missing or no number the place is not claimed."
 },
 "C64": {
  "note": "Which regular expressions compile is the environment (e_regex). C64_script needs the imports before the fault to succeed. With C60_alone every written script without imports is covered."
 },
 "C65": {
  "note": "The place of a forbidden import is only bounded by the source (trees of programs do not record where they start). cu_no_script takes files that are no written scripts from C62 and C63. Circles are C50."
 },
 "C66": {
  "note": "The readings are inductive relations (SpecMatch.v) that do not mention the execution of matchers. Where no reading can be derived (references in circles that consume nothing) nothing is claimed. Non-ASCII texts are left out: values are wrong there (C06)."
 },
 "C67": {
  "note": "The condition (steady_script) is on the written script and does not mention execution. Regular expressions must not report more than the text they are given."
 },
 "C68": {
  "note": "Regular expressions must not report more than the text they are given (measured). With C66 this makes readings and executions the same thing: C66 is the one direction, C68 the other."
 },
 "C69": {
  "note": "The conditions (guarded, onward, keeps_names) are on the grammar alone and do not mention execution. What happens when files import each other in circles is C50. The bound on the nesting is not claimed to be the smallest."
 },
 "C70": {
  "note": "That children are not compared is C70_children_count_refuted. Results are compared together with the stores their tokens are in."
 },
 "C71": {
  "note": "The text of the attributes (a HashMap) is a parameter. filial says of user code that it leaves parents older than children; the library's own closures are proved to."
 },
 "C72": {
  "note": "C72_set_value_refuted: setting the empty text does not make it the value. Flags are bytes."
 },
 "C73": {
  "note": "For standard tokens; the texts of pin tokens, which programs drop, are not updated by the code. Beyond ASCII the text of a range is not what is in the range (C06)."
 },
 "C74": {
  "note": "Matchers are changed in place in Rust; here the changed matcher is returned. C74_shown_can_be_set_refuted: Store, Pin and Register show children that cannot be set."
 },
 "C75": {
  "note": "C75_named_refuted shows why the matchers around the place must not have names of their own."
 },
 "C76": {
  "note": "Lines printed before a panic are not kept by the model. C76_success_is_silent_refuted: a script compiled with success whose syntax error is only in the log."
 },
 "C77": {
  "note": "Readings are derivations of writes and script_text (SpecSyntax.v), which are independent of the parser."
 },
 "C78": {
  "note": "The set of names is a parameter that must be closed under the grammar; polite user code respects it."
 },
 "C79": {
  "note": "self_contained holds for every environment; C79_parses needs user code that makes no errors (a compiled script runs none)."
 },
 "C80": {
  "note": "No condition on user code or texts."
 },
 "C81": {
  "note": "well_shaped and script_tree (SpecShape.v) list names and children as data; errors are only excluded below the root."
 },
 "C82": {
  "note": "C82_example_not_ascii: non-ASCII texts do panic."
 },
 "C83": {
  "note": "hopeless and spoilt (SpecShape.v) say which tokens and files are to blame and for which panic. Stack overflow is not modelled (depth bounds: C69)."
 },
 "C84": {
  "note": "lexeme (SpecLex.v) is written from the predicates of SpecSyntax.v, not from the regular expressions of the grammar. Ranges are those of the matched text."
 },
 "C85": {
  "note": "local (SpecShift.v) excludes Panic, Error, Catch, Pin, user matchers and every map but attributes and renaming: error texts hold lines and columns. C85_example_position and C85_example_accent show that the conditions are needed."
 },
 "C86": {
  "note": "rf_parse and rf_root are results of the parse without a reason; what leads to them is C62 and C63 for scripts as written, and not characterised for arbitrary texts. The places of imports are those of their tokens (C84 for names). Errors noted by the parser have the message of their token."
 }
}

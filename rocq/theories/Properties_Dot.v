(** * Line diagrams written as graphs: the final statements (C55, C74) *)
From Coq Require Import Ascii.
From Verif Require Import Py Spec PyFacts SpecFacts ContextModel ContextSpec ContextOps ContextFacts ContextInit
  ContextFinal LatticeSpec LatticeModel NorrisFacts LatticeFacts StrModel StrSpec StrFacts FileModel CxtFileModel
  DotModel DotSpec DotFacts Properties_Context Properties_Lattice.

(** ** C55: own objects and attributes *)
Theorem C55_own_names c cs ord : good c → comparable (objs c) = true → comparable (atts c) = true →
  (∀ A B, (A, B) ∈ cs ↔ is_concept (abs c) A B) → (∀ X, ord X ≡ₚ elements X) →
  (∃ d, find_own_objects ord cs = Ok d ∧ ∀ x, (is_Some (dget x d) ↔ x ∈ cs) ∧
     ∀ l, dget x d = Some l → NoDup l ∧ ∀ g, g ∈ l ↔ object_concept (abs c) g x) ∧
  (∃ d, find_own_attributes ord cs = Ok d ∧ ∀ x, (is_Some (dget x d) ↔ x ∈ cs) ∧
     ∀ l, dget x d = Some l → NoDup l ∧ ∀ m, m ∈ l ↔ attribute_concept (abs c) m x).
Proof. exact (λ Hg Ho Ha Hcs Hord, find_own_lattice c Hg Ho Ha cs Hcs ord Hord). Qed.
Print Assumptions C55_own_names.
(** Each object generates exactly one concept, and so does each attribute. *)
Theorem C55_exactly_one K :
  (∀ g, g ∈ fG K → ∃ x, object_concept K g x ∧ is_concept K x.1 x.2 ∧ ∀ y, object_concept K g y → y = x) ∧
  (∀ m, m ∈ fM K → ∃ x, attribute_concept K m x ∧ is_concept K x.1 x.2 ∧ ∀ y, attribute_concept K m y → y = x).
Proof. exact (own_unique K). Qed.
Print Assumptions C55_exactly_one.
Example C55_case : ∃ d, find_own_attributes elements ex_concepts = Ok d ∧
  dget ({[o1; o2; o3]}, {[sa]}) d = Some [sa] ∧ dget ({[o1]}, {[sa; sb]}) d = Some [sb] ∧
  dget (∅, {[sa; sb; sc]}) d = Some [] ∧ comparable (objs ex) = true.
Proof.
  exists (get_ok [] (find_own_attributes elements ex_concepts)). split; [by apply get_ok_eq; vm_compute|].
  split; [dec|]. split; [dec|]. split; [dec|done].
Qed.

(** ** C74: write_dot and uwrite_dot *)
Definition exs_table := [[true; true]; [true; false]].
Definition exs := get_ok empty_cxt (mk_context exs_table None [NStr "g"; NStr "h"] [sa; sb]).
Definition exs_concepts : list fconcept := [({[NStr "g"]}, {[sa; sb]}); ({[NStr "g"; NStr "h"]}, {[sa]})].

Theorem C74_write_dot c cs ord ordc path : good c → NoDup cs → (∀ A B, (A, B) ∈ cs ↔ is_concept (abs c) A B) →
  (∀ X, ord X ≡ₚ elements X) → (∀ X, ordc X ≡ₚ elements X) →
  (∀ x, x ∈ objs c ++ atts c → is_str x = true) → path ≠ ""%string →
  ∃ (fo fa : nat → list string) (es : list (nat * nat)),
    write_dot ord ordc cs path = Ok (dot_header ++ concat_strings (map (λ i, node_text i (fo i) (fa i)) (seq 0 (length cs))) ++
      concat_strings (map edge_line es) ++ "}")%string ∧
    (∀ i x, cs !! i = Some x → (NoDup (fo i) ∧ ∀ g, g ∈ fo i ↔ object_concept (abs c) (NStr g) x) ∧
                               (NoDup (fa i) ∧ ∀ m, m ∈ fa i ↔ attribute_concept (abs c) (NStr m) x)) ∧
    NoDup es ∧ ∀ k i, (k, i) ∈ es ↔ ∃ x y, cs !! i = Some x ∧ cs !! k = Some y ∧ is_upper_cover (abs c) y x.
Proof. exact (λ Hg Hnd Hcs Ho1 Ho2 Hs Hp, write_dot_strings c Hg cs Hnd Hcs ord Ho1 ordc Ho2 path Hs Hp). Qed.
Print Assumptions C74_write_dot.
Theorem C74_uwrite_dot c cs ord ordc dist path (full : bool) :
  good c → comparable (objs c) = true → comparable (atts c) = true →
  NoDup cs → (∀ A B, (A, B) ∈ cs ↔ is_concept (abs c) A B) →
  (∀ X, ord X ≡ₚ elements X) → (∀ X, ordc X ≡ₚ elements X) →
  path ≠ ""%string → (full = true → ∀ x, x ∈ objs c ++ atts c → is_str x = true) →
  ∃ (fo fa : nat → list name) (es : list (nat * nat)),
    uwrite_dot dist ord ordc cs path full = Ok (udot_header ++ concat_strings (map node_line (seq 0 (length cs))) ++
      concat_strings (map edge_line es) ++
      concat_strings (map (λ i, ulabel dist "headlabel" "270" i (shown_names full (map pystr (fo i))) ++
                                ulabel dist "taillabel" "90" i (shown_names full (map pystr (fa i)))) (seq 0 (length cs))) ++ "}")%string ∧
    (∀ i x, cs !! i = Some x → (NoDup (fo i) ∧ ∀ g, g ∈ fo i ↔ object_concept (abs c) g x) ∧
                               (NoDup (fa i) ∧ ∀ m, m ∈ fa i ↔ attribute_concept (abs c) m x)) ∧
    NoDup es ∧ ∀ k i, (k, i) ∈ es ↔ ∃ x y, cs !! i = Some x ∧ cs !! k = Some y ∧ is_upper_cover (abs c) y x.
Proof.
  exact (λ Hg Ho Ha Hnd Hcs Ho1 Ho2 Hp Hs, uwrite_dot_final c Hg Ho Ha cs Hnd Hcs ord Ho1 ordc Ho2 dist path full Hp Hs).
Qed.
Print Assumptions C74_uwrite_dot.
(** Without a path, or when fewer than five own names of a concept include a number, nothing is written. *)
Theorem C74_fails c cs ord ordc path : good c → comparable (objs c) = true → comparable (atts c) = true →
  NoDup cs → (∀ A B, (A, B) ∈ cs ↔ is_concept (abs c) A B) → (∀ X, ord X ≡ₚ elements X) →
  (∀ dist full, path = ""%string → write_dot ord ordc cs path = Err AssertionError ∧
                                   uwrite_dot dist ord ordc cs path full = Err AssertionError) ∧
  (path ≠ ""%string → ∀ x l, x ∈ cs → NoDup l → length l < 5 → (∃ n, NInt n ∈ l) →
     (∀ g, g ∈ l ↔ object_concept (abs c) g x) ∨ (∀ m, m ∈ l ↔ attribute_concept (abs c) m x) →
     write_dot ord ordc cs path = Err TypeError).
Proof. exact (λ Hg Ho Ha Hnd Hcs Hord, dot_fails c Hg Ho Ha cs Hnd Hcs ord Hord ordc path). Qed.
Print Assumptions C74_fails.
Example C74_case : write_dot elements elements exs_concepts "d.dot" = Ok (dot_header ++
  "c0 [width=0.25]" ++ eol ++
  "c0 -> c0[headlabel=" ++ quote "g" ++ ", labeldistance=1,labelangle=270,color=transparent]" ++ eol ++
  "c0 -> c0[taillabel=" ++ quote "b" ++ ", labeldistance=2,labelangle=90,color=transparent]" ++ eol ++
  "c1 [width=0.25]" ++ eol ++
  "c1 -> c1[headlabel=" ++ quote "h" ++ ", labeldistance=1,labelangle=270,color=transparent]" ++ eol ++
  "c1 -> c1[taillabel=" ++ quote "a" ++ ", labeldistance=2,labelangle=90,color=transparent]" ++ eol ++
  "c1 -> c0" ++ eol ++ "}")%string ∧ norris exs = Ok exs_concepts.
Proof. split; dec. Qed.
(** The lattice of [ex], whose objects are numbers. *)
Example C74_case_fails : write_dot elements elements ex_concepts "d.dot" = Err TypeError ∧
  is_ok (uwrite_dot (λ n, ""%string) elements elements ex_concepts "d.dot" false) = true ∧
  uwrite_dot (λ n, ""%string) elements elements ex_concepts "d.dot" true = Err TypeError.
Proof. split; [dec|]. split; vm_compute; reflexivity. Qed.

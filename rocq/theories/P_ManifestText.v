(** C106, C107: manifest.toml reads back as what was written, and when its text changes. *)
From Coq Require Import String NArith List Bool Permutation Sorted Lia.
From Verif Require Import Text TextProofs Version VersionSpec Toml ManifestText ManifestTextSpec ManifestTextProofs ManifestTextMain.
Import ListNotations.
Local Open Scope list_scope.
Local Open Scope N_scope.

(** ** C106 *)

(** What was claimed: whatever the texts of a manifest are, it is read back. It is not so: no
    text is escaped. A path with a quotation mark, and a range of versions over two lines,
    are written and can not be read; a backslash in a path is read as a slash. *)
Theorem C106_a_manifest_reads_back_refuted : exists root m,
  fine_manifest (fun _ => True) m /\ read_manifest (to_toml root m) = None.
Proof.
  exists (str "/home/lucy/app"), (Manifest [(str "dep", Path (str "../the ""old"" dep"))] []). split; [|vm_compute; reflexivity].
  constructor; [constructor| |].
  - constructor; [|constructor]. split.
    + exists 100, (str "ep"). split; [reflexivity|]. split; [lia|]. repeat constructor; unfold a_name_char; cbn; lia.
    + split; [exact I|]. intros [r E]. discriminate E.
  - constructor; [intros []|constructor].
Qed.
Print Assumptions C106_a_manifest_reads_back_refuted.

Theorem C106_a_range_on_two_lines_refuted : exists root m,
  fine_manifest (fun _ => True) m /\ read_manifest (to_toml root m) = None
  /\ exists range, requirements m = [(str "dep", Hex range)].
Proof.
  exists (str "/home/lucy/app"), (Manifest [(str "dep", Hex (str ">= 1.0.0 and" ++ [10] ++ str "< 2.0.0"))] []).
  split; [|split; [vm_compute; reflexivity|eexists; reflexivity]].
  constructor; [constructor| |].
  - constructor; [|constructor]. split.
    + exists 100, (str "ep"). split; [reflexivity|]. split; [lia|]. repeat constructor; unfold a_name_char; cbn; lia.
    + split; [exact I|]. eexists. vm_compute. reflexivity.
  - constructor; [intros []|constructor].
Qed.
Print Assumptions C106_a_range_on_two_lines_refuted.

Theorem C106_backslashes_refuted : exists root m n,
  fine_manifest (fun _ => True) m /\ read_manifest (to_toml root m) = Some n /\ ~ same_manifest root m n.
Proof.
  exists (str "/home/lucy/app"), (Manifest [(str "dep", Path (str "old\dep"))] []), (Manifest [(str "dep", Path (str "old/dep"))] []).
  split; [|split; [vm_compute; reflexivity|]].
  - constructor; [constructor| |].
    + constructor; [|constructor]. split.
      * exists 100, (str "ep"). split; [reflexivity|]. split; [lia|]. repeat constructor; unfold a_name_char; cbn; lia.
      * split; [exact I|]. intros [r E]. discriminate E.
    + constructor; [intros []|constructor].
  - intros [_ (rs & P & F)]. cbn in P, F. apply Permutation_length_1_inv in P. subst rs.
    inversion F as [|? ? ? ? H _]; subst. destruct H as [_ H]. cbn [snd] in H. destruct H as [_ S].
    assert (str "old/dep" = str "old\dep") as E by (apply S; intros [r E]; discriminate E). discriminate E.
Qed.
Print Assumptions C106_backslashes_refuted.

(** With texts that need no escapes (no quotation marks, backslashes or control characters)
    every manifest is read back: the same packages and requirements, in some order, each
    with the same name, version, source and so on; a path that was absolute is read as one
    that leads from the project to the same place. Missing: the other texts. *)
Theorem C106_a_manifest_reads_back_partial : forall root m, fine_manifest plain m ->
  exists n, read_manifest (to_toml root m) = Some n /\ same_manifest root m n.
Proof. intros root m F. exists (canon root m). split; [apply read_back, F|apply canon_same, F]. Qed.
Print Assumptions C106_a_manifest_reads_back_partial.

(** A manifest with a package of each source. *)
Definition a_manifest : manifest :=
  Manifest [(str "wobble", Git (str "https://example.com/wobble") (str "main") (Some (str "lib/wobble")));
            (str "gleam_stdlib", Hex (str ">= 0.34.0 and < 2.0.0"));
            (str "dep", Path (str "/home/lucy/dep"))]
    [Package (str "wobble") (Version 1 0 0 [AlphaNumeric (str "rc1")] None) [str "gleam"] None
       [str "gleam_stdlib"; str "dep"] (FromGit (str "https://example.com/wobble") (str "0f1e2d") (Some (str "lib/wobble")));
     Package (str "gleam_stdlib") (Version 0 34 0 [] None) [str "gleam"; str "rebar3"] (Some (str "gleam_stdlib")) [] (FromHex [1; 171; 255]);
     Package (str "dep") (Version 0 1 0 [] None) [str "gleam"] None [] (FromLocal (str "/home/lucy/dep"))].
Example a_package_line :
  package_to_toml (str "/home/lucy/app") (nth 1 (packages a_manifest) (nth 0 (packages a_manifest) (Package [] (Version 0 0 0 [] None) [] None [] (FromHex []))))
  = str "  { name = ""gleam_stdlib"", version = ""0.34.0"", build_tools = [""gleam"", ""rebar3""], requirements = [], otp_app = ""gleam_stdlib"", source = ""hex"", outer_checksum = ""01ABFF"" }," ++ [10].
Proof. vm_compute. reflexivity. Qed.
Example it_reads_back :
  match read_manifest (to_toml (str "/home/lucy/app") a_manifest) with
  | Some n =>
      map (fun p => (name p, needs p, from p)) (packages n)
      = [(str "dep", [], FromLocal (str "../dep"));
         (str "gleam_stdlib", [], FromHex [1; 171; 255]);
         (str "wobble", [str "dep"; str "gleam_stdlib"], FromGit (str "https://example.com/wobble") (str "0f1e2d") (Some (str "lib/wobble")))]
      /\ requirements n
      = [(str "dep", Path (str "../dep")); (str "gleam_stdlib", Hex (str ">= 0.34.0 and < 2.0.0"));
         (str "wobble", Git (str "https://example.com/wobble") (str "main") (Some (str "lib/wobble")))]
  | None => False
  end.
Proof. vm_compute. split; reflexivity. Qed.
(** The hypothesis holds of it. *)
Ltac a_plain := repeat constructor; unfold plain_char; cbn; lia.
Ltac a_name_ := eexists _, _; split; [reflexivity|]; split; [cbn; lia|]; repeat constructor; unfold a_name_char; cbn; lia.
Ltac a_path := intros _; exists [str "home"; str "lucy"; str "dep"]; split;
  [exact (components_splits (str "/home/lucy/dep"))|intros [X|[X|[X|[]]]]; discriminate X].
Ltac an_inside := split; [intros [r X]; discriminate X|]; exists [str "lib"; str "wobble"]; split;
  [exact (components_splits (str "lib/wobble"))|intros [X|[X|[]]]; discriminate X].
Example it_is_fine : fine_manifest plain a_manifest.
Proof.
  constructor.
  - constructor; [|constructor; [|constructor; [|constructor]]].
    + constructor; cbn; [a_name_| |repeat constructor; unfold plain_char; cbn; lia|exact I|repeat constructor; unfold plain_char; cbn; lia|].
      * repeat split; try (cbn; lia). constructor; [|constructor]. split.
        -- apply one_piece. split; [discriminate|]. split; [repeat constructor|]. split; [split; reflexivity|].
           intros (r & X & _). discriminate X.
        -- intros n L X. pose proof (decimal_digits n) as D. rewrite <- X in D. inversion D. discriminate.
      * split; [a_plain|]. split; [a_plain|]. split; [a_plain|an_inside].
    + constructor; cbn; [a_name_| |repeat constructor; unfold plain_char; cbn; lia|a_name_|constructor|].
      * repeat split; try (cbn; lia). constructor.
      * repeat constructor; lia.
    + constructor; cbn; [a_name_| |repeat constructor; unfold plain_char; cbn; lia|exact I|constructor|].
      * repeat split; try (cbn; lia). constructor.
      * split; [a_plain|a_path].
  - constructor; [|constructor; [|constructor; [|constructor]]]; (split; [a_name_|]); cbn.
    + split; [a_plain|]. split; [a_plain|]. split; [a_plain|]. split; [discriminate|an_inside].
    + split; [a_plain|]. eexists. vm_compute. reflexivity.
    + split; [a_plain|a_path].
  - repeat constructor; cbn; intuition discriminate.
Qed.

(** ** C107 *)

(** The text does not depend on the order in which packages, requirements or the
    dependencies of a package come. *)
Theorem C107_the_order_does_not_matter : forall root m n, shuffled m n ->
  NoDup (map name (packages m)) -> NoDup (map fst (requirements m)) -> to_toml root m = to_toml root n.
Proof. intros root m n [P R]. apply order_text; assumption. Qed.
Print Assumptions C107_the_order_does_not_matter.

(** What is read is in alphabetical order, and writing it again changes nothing. *)
Theorem C107_saving_again_changes_nothing : forall root m n, fine_manifest plain m ->
  read_manifest (to_toml root m) = Some n ->
  to_toml root n = to_toml root m
  /\ alphabetical name (packages n) /\ alphabetical fst (requirements n)
  /\ Forall (fun p => alphabetical (fun s => s) (needs p)) (packages n).
Proof.
  intros root m n F R. rewrite read_back in R by exact F. injection R as <-. split; [apply canon_text, F|].
  assert (forall A (key : A -> text) l, StronglySorted (fun a b => le (key a) (key b)) l -> alphabetical key l) as A.
  { intros A key l. induction 1 as [|a l S IH G]; constructor; [exact IH|]. eapply Forall_impl; [|exact G].
    intros b. apply le_alphabetical. }
  repeat split.
  - apply A, (order_map name name); [reflexivity|apply sorted_by_order].
  - apply A, (order_map fst fst); [reflexivity|apply sorted_by_order].
  - apply Forall_map. apply Forall_forall. intros p _. apply A, sorted_by_order.
Qed.
Print Assumptions C107_saving_again_changes_nothing.

(** A package more is a line more: the text before and the text after stay as they are. *)
Theorem C107_a_package_is_a_line : forall root rs p ps,
  fine_package plain p -> Forall (fine_package plain) ps ->
  exists before_ after line,
    to_toml root (Manifest rs ps) = before_ ++ [10] ++ after
    /\ to_toml root (Manifest rs (p :: ps)) = before_ ++ [10] ++ line ++ [10] ++ after
    /\ ~ In 10 line.
Proof. exact one_line. Qed.
Print Assumptions C107_a_package_is_a_line.

Example another_order :
  let other := Manifest (rev (requirements a_manifest)) (rev (packages a_manifest)) in
  to_toml (str "/home/lucy/app") other = to_toml (str "/home/lucy/app") a_manifest /\ other <> a_manifest.
Proof. split; [vm_compute; reflexivity|discriminate]. Qed.
Example saved_again :
  match read_manifest (to_toml (str "/home/lucy/app") a_manifest) with
  | Some n => to_toml (str "/home/lucy/app") n = to_toml (str "/home/lucy/app") a_manifest /\ n <> a_manifest
  | None => False
  end.
Proof. vm_compute. split; [reflexivity|discriminate]. Qed.

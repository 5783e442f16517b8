(** The .app file of a package (C111, C112). *)
From Coq Require Import String Arith NArith List Bool Permutation Sorted.
From Verif Require Import Text TextProofs ErlangSource ManifestText ManifestTextProofs ErlTerm AppFile AppFileSpec AppFileProofs.
Import ListNotations.
Local Open Scope list_scope.

(** ** C111: the file is read as what it should say *)
Theorem C111_app_file_says_partial c config modules cached native :
  sound c config modules cached native -> bare_names c config -> literal 34 (description config) ->
  exists t, consult (render c config modules cached native) = Some [t] /\ says c config modules cached native t.
Proof. apply file_says. Qed.
Print Assumptions C111_app_file_says_partial.

Definition simple (description : string) (dependencies : list string) : package_config :=
  PackageConfig (str "wibble") (str "1.2.0") (str description) (map str dependencies) [str "gleeunit"] None None [].
Definition no_dev := Configuration false [].
Lemma simple_sound d l : sound no_dev (simple d l) [str "wibble"] [] [].
Proof.
  split; cbn; auto.
  - split; vm_compute; intuition discriminate.
  - constructor; [|constructor]. split; vm_compute; intuition discriminate.
Qed.
Local Ltac is_bare := split; [eexists; eexists; split; [reflexivity|split; reflexivity]|vm_compute; intuition discriminate].
(** Descriptions are not escaped. *)
Theorem C111_description_refuted : exists c config modules cached native,
  sound c config modules cached native /\ bare_names c config /\ consult (render c config modules cached native) = None.
Proof.
  exists no_dev, (simple "The ""best"" package" ["gleam_stdlib"%string]), [str "wibble"], [], [].
  split; [apply simple_sound|]. split; [|vm_compute; reflexivity].
  split; cbn; [is_bare| |constructor]. constructor; [is_bare|constructor; [is_bare|constructor]].
Qed.
Print Assumptions C111_description_refuted.
(** Names of applications are not quoted, and some are words of Erlang. *)
Theorem C111_words_of_erlang_refuted : exists c config modules cached native,
  sound c config modules cached native /\ literal 34 (description config)
  /\ Forall (fun n => exists x r, n = x :: r /\ forallb small (x :: r) = true) (name config :: dependencies config)
  /\ consult (render c config modules cached native) = None.
Proof.
  exists no_dev, (simple "A package" ["maybe"%string]), [str "wibble"], [], [].
  split; [apply simple_sound|]. split; [split; vm_compute; intuition discriminate|]. split; [|vm_compute; reflexivity].
  constructor; [|constructor; [|constructor]]; eexists; eexists; (split; reflexivity).
Qed.
Print Assumptions C111_words_of_erlang_refuted.

Definition with_everything : package_config :=
  PackageConfig (str "wibble") (str "1.2.0") (str "It's a package") [str "gleam_stdlib"; str "cowboy_gleam"] [str "gleeunit"]
    (Some (str "wibble/app")) (Some (str "{one, ""two""}")) [str "crypto"].
Definition settings := Configuration true [(str "cowboy_gleam", str "cowboy")].
Lemma argument_reads : reads_as (str "{one, ""two""}") (Tuple [Atom (str "one"); Str (str "two")]).
Proof.
  exists [TOpen true; TAtom (str "one"); TComma; TStr (str "two"); TClose true]. split.
  - intro rest. rewrite (lex_run Plain (str "{one, ""two""}") [TOpen true; TAtom (str "one"); TComma; TStr (str "two"); TClose true] Plain) by (vm_compute; reflexivity). reflexivity.
  - intros [|(k & items) stack] out rest; reflexivity.
Qed.
Example everything_is_there :
  sound settings with_everything [str "wibble/app"; str "wibble"] [str "wibble/data"] [str "Elixir.Wibble"; str "wibble_ffi"] /\ bare_names settings with_everything
  /\ consult (render settings with_everything [str "wibble/app"; str "wibble"] [str "wibble/data"] [str "Elixir.Wibble"; str "wibble_ffi"])
  = Some [Tuple [Atom (str "application"); Atom (str "wibble"); List
      [Tuple [Atom (str "mod"); Tuple [Atom (str "wibble@app"); Tuple [Atom (str "one"); Str (str "two")]]];
       Tuple [Atom (str "vsn"); Str (str "1.2.0")];
       Tuple [Atom (str "applications"); List (map Atom [str "cowboy"; str "crypto"; str "gleam_stdlib"; str "gleeunit"])];
       Tuple [Atom (str "description"); Str (str "It's a package")];
       Tuple [Atom (str "modules"); List (map Atom [str "Elixir.Wibble"; str "wibble"; str "wibble@app"; str "wibble@data"; str "wibble_ffi"])];
       Tuple [Atom (str "registered"); List []]]]].
Proof.
  split; [|split; [|vm_compute; reflexivity]].
  - split; cbn.
    + split; vm_compute; intuition discriminate.
    + repeat constructor; vm_compute; intuition discriminate.
    + split; vm_compute; intuition discriminate.
    + eexists. apply argument_reads.
  - split; cbn; [is_bare|repeat (constructor; [is_bare|]); constructor|constructor; [is_bare|constructor]].
Qed.
Example text_of_a_small_one : render no_dev (simple "A package" ["gleam_stdlib"%string; "argv"%string]) [str "wibble"; str "wibble/end"; str "end"] [] [] =
  (str "{application, wibble, [" ++ [10%N] ++ str "    {vsn, ""1.2.0""}," ++ [10%N]
   ++ str "    {applications, [argv," ++ [10%N] ++ str "                    gleam_stdlib]}," ++ [10%N]
   ++ str "    {description, ""A package""}," ++ [10%N]
   ++ str "    {modules, ['end'," ++ [10%N] ++ str "               wibble," ++ [10%N] ++ str "               wibble@end]}," ++ [10%N]
   ++ str "    {registered, []}" ++ [10%N] ++ str "]}." ++ [10%N]).
Proof. vm_compute. reflexivity. Qed.

(** ** C112: it is the same after builds with nothing to do *)
Lemma sorted_same l k : Permutation l k -> sorted l = sorted k.
Proof. intro P. apply sorted_by_unique; auto. Qed.
Lemma overridden_same l k n : Permutation l k -> NoDup (map fst l) -> overridden l n = overridden k n.
Proof.
  intros P N. assert (forall j a, NoDup (map fst j) -> In (n, a) j -> overridden j n = a) as F.
  { induction j as [|(x & y) j IH]; intros a D I; [contradiction|]. inversion D as [|? ? D1 D2]. subst. cbn. destruct (text_eqb x n) eqn:E.
    - destruct I as [I|I]; [congruence|]. apply text_eqb_eq in E. subst x. exfalso. apply D1. apply in_map_iff. exists (n, a). auto.
    - apply text_eqb_neq in E. destruct I as [I|I]; [congruence|]. auto. }
  assert (forall j, ~ In n (map fst j) -> overridden j n = n) as G.
  { induction j as [|(x & y) j IH]; intro D; [reflexivity|]. cbn in *. destruct (text_eqb x n) eqn:E; [apply text_eqb_eq in E; tauto|]. apply IH. tauto. }
  assert (NoDup (map fst k)) as N' by (eapply Permutation_NoDup; [apply Permutation_map, P|exact N]).
  destruct (in_dec text_eq_dec n (map fst l)) as [I|I].
  - apply in_map_iff in I as ((x & a) & E & I). cbn in E. subst x. rewrite (F l a N I). symmetry. apply F; [exact N'|]. exact (Permutation_in _ P I).
  - rewrite !G; [reflexivity| |exact I]. intro J. apply I. exact (Permutation_in _ (Permutation_sym (Permutation_map fst P)) J).
Qed.
Theorem C112_the_same_file dev overrides overrides' n v d deps deps' devs devs' sm sa extra extra' modules cached native modules' cached' native' :
  Permutation overrides overrides' -> NoDup (map fst overrides) ->
  Permutation deps deps' -> Permutation devs devs' -> Permutation extra extra' ->
  (forall e, module_of modules cached native e <-> module_of modules' cached' native' e) ->
  render (Configuration dev overrides) (PackageConfig n v d deps devs sm sa extra) modules cached native
  = render (Configuration dev overrides') (PackageConfig n v d deps' devs' sm sa extra') modules' cached' native'.
Proof.
  intros O N D V X M.
  assert (module_list modules cached native = module_list modules' cached' native') as E1.
  { unfold module_list. apply sorted_same. apply NoDup_Permutation; try apply unique_NoDup. intro e.
    pose proof (M e) as Me. rewrite <- !module_list_In in Me. unfold module_list in Me. rewrite !sorted_In in Me. exact Me. }
  assert (applications (Configuration dev overrides) (PackageConfig n v d deps devs sm sa extra) = applications (Configuration dev overrides') (PackageConfig n v d deps' devs' sm sa extra')) as E2.
  { unfold applications. cbn. apply sorted_same. apply Permutation_app; [|exact X].
    rewrite (map_ext _ (overridden overrides')) by (intro; apply overridden_same; assumption). apply Permutation_map.
    apply Permutation_app; [exact D|]. destruct dev; auto. }
  unfold render. rewrite E1, E2. reflexivity.
Qed.
Print Assumptions C112_the_same_file.

(** All modules are compiled, and then only one of them. *)
Example after_a_small_change :
  render no_dev (simple "A package" ["gleam_stdlib"%string]) [str "wibble"; str "wibble/a"; str "wibble/b"] [] [str "ffi"]
  = render no_dev (simple "A package" ["gleam_stdlib"%string]) [str "wibble/a"] [str "wibble/b"; str "wibble"] [str "ffi"].
Proof.
  apply C112_the_same_file; try reflexivity; [constructor|]. intro e. rewrite <- !module_list_In. vm_compute. split; auto.
Qed.

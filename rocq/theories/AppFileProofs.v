(** Proofs about .app files. *)
From Coq Require Import String Arith NArith List Bool Permutation Sorted Lia.
From Coq Require Import ZifyBool ZifyNat ZifyN.
From Verif Require Import Text TextProofs ErlangSource ManifestText ManifestTextProofs ErlTerm AppFile AppFileSpec.
Import ListNotations.
Local Open Scope list_scope.
Local Open Scope N_scope.

(** ** Reading tokens *)
Definition pre (ts : list token) (o : option (list token)) : option (list token) := match o with Some l => Some (ts ++ l) | None => None end.
Fixpoint run (st : state) (s : text) : option (list token * state) :=
  match s with
  | [] => Some ([], st)
  | c :: s => match step st c with
              | Some (ts, st) => match run st s with Some (l, st) => Some (ts ++ l, st) | None => None end
              | None => None
              end
  end.
Lemma pre_pre a b o : pre a (pre b o) = pre (a ++ b) o.
Proof. destruct o; cbn; [now rewrite app_assoc|reflexivity]. Qed.
Lemma lex_run st a ts st' b : run st a = Some (ts, st') -> lex st (a ++ b) = pre ts (lex st' b).
Proof.
  revert st ts. induction a as [|c a IH]; intros st ts H; cbn [run app lex] in *.
  - injection H as <- <-. destruct (lex st b); reflexivity.
  - destruct (step st c) as [(t1 & s1)|]; [|discriminate]. destruct (run s1 a) as [(l & s2)|] eqn:R; [|discriminate]. injection H as <- <-.
    rewrite (IH _ _ R). destruct (lex s2 b); cbn; [now rewrite app_assoc|reflexivity].
Qed.
Lemma run_app st a ts st' b : run st a = Some (ts, st') -> run st (a ++ b) = match run st' b with Some (l, s) => Some (ts ++ l, s) | None => None end.
Proof.
  revert st ts. induction a as [|c a IH]; intros st ts H; cbn [run app] in *.
  - injection H as <- <-. destruct (run st b) as [(? & ?)|]; reflexivity.
  - destruct (step st c) as [(t1 & s1)|]; [|discriminate]. destruct (run s1 a) as [(l & s2)|] eqn:R; [|discriminate]. injection H as <- <-.
    rewrite (IH _ _ R). destruct (run s2 b) as [(? & ?)|]; [now rewrite app_assoc|reflexivity].
Qed.
Lemma run_quoted q s : literal q s -> forall acc, run (Quoted q acc) s = Some ([], Quoted q (rev s ++ acc)).
Proof.
  intros (A & B). induction s as [|c s IH]; intro acc; [reflexivity|]. cbn [run step].
  assert (c =? q = false) as -> by (apply N.eqb_neq; intros ->; apply A; left; reflexivity).
  assert (c =? 92 = false) as -> by (apply N.eqb_neq; intros ->; apply B; left; reflexivity).
  rewrite IH by (intro; first [apply A; right; assumption|apply B; right; assumption]). cbn. now rewrite <- app_assoc.
Qed.
Lemma run_chars r : forallb name_char r = true -> forall acc, run (Word acc) r = Some ([], Word (rev r ++ acc)).
Proof.
  induction r as [|c r IH]; intros F acc; [reflexivity|]. cbn in F. apply andb_prop in F as [C F]. cbn [run step]. rewrite C, (IH F). cbn. now rewrite <- app_assoc.
Qed.
Lemma run_bare a : bare a -> run Plain a = Some ([], Word (rev a)).
Proof.
  intros ((c & r & -> & S & F) & _). cbn [run step]. unfold plain_step.
  assert (space c = false) as -> by (unfold space, small in *; lia). rewrite S, (run_chars r F). reflexivity.
Qed.
Lemma run_word a c s ts st : bare a -> name_char c = false -> run Plain (c :: s) = Some (ts, st) -> run (Word (rev a)) (c :: s) = Some (TAtom a :: ts, st).
Proof.
  intros (_ & K) C R. cbn [run step] in *. rewrite C. unfold finish. rewrite rev_involutive. destruct (existsb (text_eqb a) keywords) eqn:E.
  - exfalso. apply K. apply existsb_exists in E as (x & I & E). apply text_eqb_eq in E. now subst.
  - destruct (plain_step c) as [(t & s1)|]; [|discriminate]. destruct (run s1 s) as [(l & s2)|]; [|discriminate]. injection R as <- <-. reflexivity.
Qed.

(** Atoms up to a character that ends them *)
Definition atom_text (w a : text) : Prop := forall c s ts st, name_char c = false -> run Plain (c :: s) = Some (ts, st) -> run Plain (w ++ c :: s) = Some (TAtom a :: ts, st).
Lemma bare_atom a : bare a -> atom_text a a.
Proof. intros B c s ts st C R. rewrite (run_app _ _ _ _ _ (run_bare a B)), (run_word a c s ts st B C R). reflexivity. Qed.
Lemma quoted_atom a : literal 39 a -> atom_text (str "'" ++ a ++ str "'") a.
Proof.
  intros L c s ts st C R. change ((str "'" ++ a ++ str "'") ++ c :: s) with (str "'" ++ (a ++ str "'") ++ c :: s). rewrite <- app_assoc.
  change (str "'") with [39] at 1. cbn [app run step plain_step]. change (plain_step 39) with (Some ([] : list token, Quoted 39 [])). cbn iota beta.
  rewrite (run_app _ _ _ _ _ (run_quoted 39 a L [])). change (str "'" ++ c :: s) with (39 :: c :: s). rewrite app_nil_r.
  change (run (Quoted 39 (rev a)) (39 :: c :: s)) with (match run Plain (c :: s) with Some (l, st) => Some (TAtom (rev (rev a)) :: l, st) | None => None end).
  rewrite R, rev_involutive. reflexivity.
Qed.
Lemma keywords_reserved : forallb is_erlang_reserved_word keywords = true.
Proof. vm_compute. reflexivity. Qed.
Lemma escape_atom_text a : literal 39 a -> atom_text (escape_atom_string a) a.
Proof.
  intro L. unfold escape_atom_string. destruct (is_erlang_reserved_word a) eqn:R; [apply quoted_atom, L|].
  destruct (atom_name_regex a) eqn:X; [|apply quoted_atom, L]. apply bare_atom. split.
  - destruct a as [|c r]; [discriminate|]. cbn in X. apply andb_prop in X as [X Y]. exists c, r. split; [reflexivity|]. split; [exact X|].
    rewrite forallb_forall in *. intros d I. specialize (Y d I). unfold name_char, small, is_lower, is_digit in *. lia.
  - intro I. pose proof keywords_reserved as K. rewrite forallb_forall in K. rewrite (K _ I) in R. discriminate.
Qed.

(** Lists of atoms *)
Fixpoint commas (l : list token) : list token := match l with [] => [] | [t] => [t] | t :: l => t :: TComma :: commas l end.
Lemma run_spaces n x ts st : run Plain x = Some (ts, st) -> run Plain (spaces n ++ x) = Some (ts, st).
Proof.
  intro R. unfold spaces. induction n as [|n IH]; [exact R|]. cbn [repeat app run step]. change (plain_step 32) with (Some ([] : list token, Plain)). cbn iota beta.
  rewrite IH. reflexivity.
Qed.
Lemma run_comma x ts st : run Plain x = Some (ts, st) -> run Plain (44 :: 10 :: x) = Some (TComma :: ts, st).
Proof.
  intro R. change (run Plain (44 :: 10 :: x)) with (match (match run Plain x with Some (l, st) => Some (l, st) | None => None end) with Some (l, st) => Some (TComma :: l, st) | None => None end).
  rewrite R. reflexivity.
Qed.
Lemma run_join n l k : Forall2 atom_text l k -> forall s ts st, run Plain (93 :: s) = Some (ts, st) ->
  run Plain (join (str "," ++ [10] ++ spaces n) l ++ 93 :: s) = Some (commas (map TAtom k) ++ ts, st).
Proof.
  intros F s ts st R. induction F as [|w a l k A F IH]; [exact R|]. destruct F as [|w' a' l k A' F].
  - cbn [join map commas]. rewrite (A 93 s ts st eq_refl R). reflexivity.
  - cbn [join map commas] in *. set (more := match l with [] => w' | _ => _ end) in *.
    rewrite <- !app_assoc. change (str "," ++ [10] ++ spaces n ++ more ++ 93 :: s) with (44 :: 10 :: spaces n ++ more ++ 93 :: s).
    set (cs := match map TAtom k with [] => [TAtom a'] | _ => _ end) in *.
    rewrite (A 44 (10 :: spaces n ++ more ++ 93 :: s) (TComma :: cs ++ ts) st eq_refl); [reflexivity|].
    assert (run Plain (spaces n ++ more ++ 93 :: s) = Some (cs ++ ts, st)) as Q.
    { apply run_spaces, IH. }
    apply (run_comma _ _ _ Q).
Qed.
Lemma parse_atoms k l : forall st items m top out rest, m <> Had -> l <> [] ->
  parse ((k, items) :: st) m top out (commas (map TAtom l) ++ rest) = parse ((k, rev (map Atom l) ++ items) :: st) Had top out rest.
Proof.
  induction l as [|a l IH]; intros st items m top out rest M N; [congruence|]. destruct l as [|b l].
  - destruct m; [reflexivity|reflexivity|congruence].
  - change (commas (map TAtom (a :: b :: l)) ++ rest) with (TAtom a :: TComma :: commas (map TAtom (b :: l)) ++ rest).
    assert (parse ((k, items) :: st) m top out (TAtom a :: TComma :: commas (map TAtom (b :: l)) ++ rest)
            = parse ((k, Atom a :: items) :: st) Need top out (commas (map TAtom (b :: l)) ++ rest)) as -> by (destruct m; [reflexivity|reflexivity|congruence]).
    rewrite IH by discriminate. cbn [map rev]. rewrite <- !app_assoc. reflexivity.
Qed.
Lemma parse_list l st top out rest :
  parse ((false, []) :: st) Opened top out (commas (map TAtom l) ++ TClose false :: rest)
  = let '(st, top) := add (List (map Atom l)) st top in parse st Had top out rest.
Proof.
  destruct l as [|a l]; [reflexivity|]. rewrite parse_atoms by discriminate. rewrite app_nil_r. cbn [parse Bool.eqb close]. rewrite rev_involutive. reflexivity.
Qed.

(** ** What is in the lists *)
Lemma unique_In l x : In x (unique l) <-> In x l.
Proof.
  induction l as [|y l IH]; [reflexivity|]. cbn. rewrite filter_In, IH. split; [intros [<-|(I & _)]; auto|].
  intros [<-|I]; auto. destruct (text_eqb y x) eqn:E; [left; now apply text_eqb_eq|]. right. split; [exact I|reflexivity].
Qed.
Lemma NoDup_filter_ {A} (f : A -> bool) l : NoDup l -> NoDup (filter f l).
Proof. induction 1 as [|a l N D IH]; cbn; [constructor|]. destruct (f a); [constructor; [|exact IH]|exact IH]. intro I. apply filter_In in I as (I & _). contradiction. Qed.
Lemma unique_NoDup l : NoDup (unique l).
Proof.
  induction l as [|y l IH]; [constructor|]. cbn. constructor; [|apply NoDup_filter_, IH]. intro I. apply filter_In in I as (_ & E).
  rewrite text_eqb_refl in E. discriminate.
Qed.
Lemma sorted_In l x : In x (sorted l) <-> In x l.
Proof. unfold sorted. split; apply Permutation_in; [apply Permutation_sym|]; apply sorted_by_perm. Qed.
Lemma sorted_order l : in_order (sorted l).
Proof. apply (sorted_by_order (fun s => s) l). Qed.
Lemma erlang_name_of m e : erlang_name m e <-> e = module_erlang_name m.
Proof.
  split.
  - induction 1 as [|s e H IH|c s e N H IH]; [reflexivity|rewrite IH; reflexivity|]. cbn. rewrite (proj2 (N.eqb_neq c 47) N), IH. reflexivity.
  - intros ->. induction m as [|c m IH]; [constructor|]. cbn. destruct (N.eqb_spec c 47) as [->|N]; constructor; auto.
Qed.
Lemma erlang_name_literal m : literal 39 m -> literal 39 (module_erlang_name m).
Proof.
  intros (A & B). split; intro I; apply in_map_iff in I as (c & E & I); destruct (c =? 47); try discriminate E; subst; contradiction.
Qed.
Lemma overridden_known l n a : known_as l n a <-> a = overridden l n.
Proof.
  unfold known_as. induction l as [|(k & v) l IH]; cbn.
  - split; [intros [(b & c & E & _)|(E & _)]; [destruct b; discriminate|exact E]|auto].
  - destruct (text_eqb k n) eqn:E.
    + apply text_eqb_eq in E. subst k. split.
      * intros [(b & c & E & N)|(_ & N)]; [|exfalso; auto]. destruct b as [|(k & w) b]; injection E; [congruence|]. intros _ <- <-. exfalso. apply N. left. reflexivity.
      * intros ->. left. exists [], l. auto.
    + apply text_eqb_neq in E. rewrite <- IH. split.
      * intros [(b & c & Q & N)|(-> & N)]; [|right; auto]. destruct b as [|(x & w) b]; [injection Q as -> _ _; congruence|]. injection Q as <- <- ->.
        left. exists b, c. split; [reflexivity|]. intro. apply N. right. assumption.
      * intros [(b & c & -> & N)|(-> & N)].
        -- left. exists ((k, v) :: b), c. split; [reflexivity|]. intros [Q|I]; [contradiction|contradiction].
        -- right. split; [reflexivity|]. intros [Q|I]; contradiction.
Qed.
Lemma applications_In c config a : In a (applications c config) <-> application c config a.
Proof.
  unfold applications. rewrite sorted_In, in_app_iff, in_map_iff. split.
  - intros [(n & E & I)|I]; [|now apply an_extra]. symmetry in E. apply overridden_known in E. apply in_app_or in I as [I|I]; [now apply (a_dependency _ _ n)|].
    destruct (include_dev_deps c) eqn:D; [|contradiction]. now apply (a_dev_dependency _ _ n).
  - intros [n x I K|n x D I K|x I]; [left; exists n|left; exists n|right; exact I]; apply overridden_known in K; (split; [congruence|]); apply in_or_app; [left; exact I|right; now rewrite D].
Qed.
Lemma module_list_In modules cached native e : In e (module_list modules cached native) <-> module_of modules cached native e.
Proof.
  unfold module_list. rewrite sorted_In, unique_In, !in_app_iff, !in_map_iff. split.
  - intros [(m & <- & I)|[(m & <- & I)|I]]; [apply (compiled _ _ _ m)|apply (not_recompiled _ _ _ m)|apply a_native]; auto; apply erlang_name_of; reflexivity.
  - intros [m x I E|m x I E|x I]; [left; exists m|right; left; exists m|right; right; exact I]; apply erlang_name_of in E; auto.
Qed.
Lemma module_list_NoDup modules cached native : NoDup (module_list modules cached native).
Proof. unfold module_list, sorted. eapply Permutation_NoDup; [apply sorted_by_perm|apply unique_NoDup]. Qed.
Lemma Forall2_same {A} (R : A -> A -> Prop) l : (forall a, In a l -> R a a) -> Forall2 R l l.
Proof. induction l as [|a l IH]; intro H; constructor; [apply H; left; reflexivity|]. apply IH. intros; apply H; right; assumption. Qed.
Lemma Forall2_image {A B} (R : B -> A -> Prop) (f : A -> B) l : (forall a, In a l -> R (f a) a) -> Forall2 R (map f l) l.
Proof. induction l as [|a l IH]; intro H; constructor; [apply H; left; reflexivity|]. apply IH. intros; apply H; right; assumption. Qed.

(** ** The file *)
Section File.
  Context (c : configuration) (config : package_config) (modules cached native : list text).
  Context (ok : sound c config modules cached native) (names : bare_names c config) (plain : literal 34 (description config)).

  Lemma applications_bare a : In a (applications c config) -> bare a.
  Proof.
    rewrite applications_In. destruct names as [_ D O]. rewrite Forall_forall in D, O. intros [n x I K|n x E I K|x I].
    - destruct K as [(b & r & K & _)|(-> & _)]; [apply (O (n, x)); rewrite K; apply in_or_app; right; left; reflexivity|]. apply D. apply in_or_app. auto.
    - destruct K as [(b & r & K & _)|(-> & _)]; [apply (O (n, x)); rewrite K; apply in_or_app; right; left; reflexivity|]. apply D. rewrite !in_app_iff. auto.
    - apply D. rewrite !in_app_iff. auto.
  Qed.
  Lemma modules_literal e : In e (module_list modules cached native) -> literal 39 e.
  Proof.
    rewrite module_list_In. destruct ok as [_ M _ _]. rewrite Forall_forall in M. intros [m x I E|m x I E|x I]; try apply erlang_name_of in E; subst.
    - apply erlang_name_literal, M, in_or_app. auto.
    - apply erlang_name_literal, M. rewrite !in_app_iff. auto.
    - apply M. rewrite !in_app_iff. auto.
  Qed.
  Lemma lex_string acc s b ts st : literal 34 s -> run (Quoted 34 acc) (s ++ b) = match run (Quoted 34 (rev s ++ acc)) b with Some (l, x) => Some (l, x) | None => None end
    /\ (run (Quoted 34 (rev s)) b = Some (ts, st) -> run (Quoted 34 []) (s ++ b) = Some (ts, st)).
  Proof.
    intro L. split; [apply (run_app _ _ _ _ b (run_quoted 34 s L acc))|]. intro R. rewrite (run_app _ _ _ _ b (run_quoted 34 s L [])), app_nil_r, R. reflexivity.
  Qed.

  (* What comes after the module that is started *)
  Definition rest_text : text :=
    str "    {vsn, """ ++ version config ++ str """}," ++ [10]
    ++ str "    {applications, [" ++ join (str "," ++ [10] ++ spaces 20) (applications c config) ++ str "]}," ++ [10]
    ++ str "    {description, """ ++ description config ++ str """}," ++ [10]
    ++ str "    {modules, [" ++ join (str "," ++ [10] ++ spaces 15) (map escape_atom_string (module_list modules cached native)) ++ str "]}," ++ [10]
    ++ str "    {registered, []}" ++ [10]
    ++ str "]}." ++ [10].
  Definition key (s : text) := [TOpen true; TAtom s; TComma].
  Definition rest_tokens : list token :=
    key (str "vsn") ++ [TStr (version config); TClose true; TComma]
    ++ key (str "applications") ++ [TOpen false] ++ commas (map TAtom (applications c config)) ++ [TClose false; TClose true; TComma]
    ++ key (str "description") ++ [TStr (description config); TClose true; TComma]
    ++ key (str "modules") ++ [TOpen false] ++ commas (map TAtom (module_list modules cached native)) ++ [TClose false; TClose true; TComma]
    ++ key (str "registered") ++ [TOpen false; TClose false; TClose true; TClose false; TClose true; TDot].
  Lemma tail_run : run Plain (93 :: str "}," ++ [10] ++ str "    {registered, []}" ++ [10] ++ str "]}." ++ [10])
    = Some ([TClose false; TClose true; TComma] ++ key (str "registered") ++ [TOpen false; TClose false; TClose true; TClose false; TClose true; TDot], Plain).
  Proof. vm_compute. reflexivity. Qed.
  Lemma rest_run : run Plain rest_text = Some (rest_tokens, Plain).
  Proof.
    unfold rest_text, rest_tokens.
    rewrite (run_app Plain (str "    {vsn, """) (key (str "vsn")) (Quoted 34 [])) by (vm_compute; reflexivity).
    rewrite (run_app _ _ _ _ _ (run_quoted 34 (version config) (s_version _ _ _ _ _ ok) [])), app_nil_r.
    rewrite (run_app (Quoted 34 (rev (version config))) (str """},") [TStr (rev (rev (version config))); TClose true; TComma] Plain) by reflexivity.
    rewrite rev_involutive. rewrite (run_app Plain [10] [] Plain) by reflexivity.
    rewrite (run_app Plain (str "    {applications, [") (key (str "applications") ++ [TOpen false]) Plain) by (vm_compute; reflexivity).
    match goal with |- context [join _ (applications c config) ++ str "]}," ++ ?b] => change (str "]}," ++ b) with (93 :: str "}," ++ b) end.
    match goal with |- context [run Plain (join _ (applications c config) ++ 93 :: ?b)] => assert (exists ts, run Plain (93 :: b) = Some (ts, Plain) /\
      ts = [TClose false; TClose true; TComma] ++ key (str "description") ++ [TStr (description config); TClose true; TComma]
    ++ key (str "modules") ++ [TOpen false] ++ commas (map TAtom (module_list modules cached native)) ++ [TClose false; TClose true; TComma]
    ++ key (str "registered") ++ [TOpen false; TClose false; TClose true; TClose false; TClose true; TDot]) as (ts & R & T) end.
    { eexists. split; [|reflexivity].
      match goal with |- run Plain (93 :: str "}," ++ ?b) = _ => change (93 :: str "}," ++ b) with (str "]}," ++ b) end.
      rewrite (run_app Plain (str "]},") [TClose false; TClose true; TComma] Plain) by reflexivity.
      rewrite (run_app Plain [10] [] Plain) by reflexivity.
      rewrite (run_app Plain (str "    {description, """) (key (str "description")) (Quoted 34 [])) by (vm_compute; reflexivity).
      rewrite (run_app _ _ _ _ _ (run_quoted 34 (description config) plain [])), app_nil_r.
      rewrite (run_app (Quoted 34 (rev (description config))) (str """},") [TStr (rev (rev (description config))); TClose true; TComma] Plain) by reflexivity.
      rewrite rev_involutive. rewrite (run_app Plain [10] [] Plain) by reflexivity.
      rewrite (run_app Plain (str "    {modules, [") (key (str "modules") ++ [TOpen false]) Plain) by (vm_compute; reflexivity).
      match goal with |- context [join _ (map escape_atom_string _) ++ str "]}," ++ ?b] => change (str "]}," ++ b) with (93 :: str "}," ++ b) end.
      rewrite (run_join 15 _ (module_list modules cached native)
        (Forall2_image atom_text escape_atom_string _ (fun a I => escape_atom_text a (modules_literal a I))) _ _ _ tail_run).
      reflexivity. }
    rewrite (run_join 20 _ (applications c config) (Forall2_same atom_text _ (fun a I => bare_atom a (applications_bare a I))) _ _ _ R), T. reflexivity.
  Qed.

  Lemma start_tokens : exists ts start, starts config start
    /\ (forall b, lex Plain (start_module config ++ b) = pre ts (lex Plain b))
    /\ (forall st out rest, parse ((false, []) :: st) Opened None out (ts ++ TOpen true :: rest) = parse ((false, rev start) :: st) (match start with [] => Opened | _ => Need end) None out (TOpen true :: rest)).
  Proof.
    unfold start_module. destruct ok as [_ _ S A]. destruct (application_start_module config) as [m|] eqn:M.
    - pose proof (erlang_name_literal m S) as L.
      assert (forall b, lex Plain (str "    {mod, {'" ++ module_erlang_name m ++ str "', " ++ b) = pre [TOpen true; TAtom (str "mod"); TComma; TOpen true; TAtom (module_erlang_name m); TComma] (lex Plain b)) as H.
      { intro b. rewrite (lex_run Plain (str "    {mod, {'") [TOpen true; TAtom (str "mod"); TComma; TOpen true] (Quoted 39 [])) by (vm_compute; reflexivity).
        rewrite (lex_run _ _ _ _ _ (run_quoted 39 _ L [])), app_nil_r.
        rewrite (lex_run (Quoted 39 (rev (module_erlang_name m))) (str "', ") [TAtom (rev (rev (module_erlang_name m))); TComma] Plain) by reflexivity.
        rewrite rev_involutive, !pre_pre. reflexivity. }
      assert (forall a b, tuple (str "mod") (str "{'" ++ module_erlang_name m ++ str "', " ++ a ++ str "}") ++ b
              = str "    {mod, {'" ++ module_erlang_name m ++ str "', " ++ a ++ 125 :: str "}," ++ [10] ++ b) as T.
      { intros a b. unfold tuple. change (str "    {mod, {'") with (str "    {" ++ str "mod" ++ str ", " ++ str "{'"). rewrite <- !app_assoc. reflexivity. }
      destruct (application_start_argument config) as [s|] eqn:E.
      + destruct A as (t & ts & R & P).
        exists ([TOpen true; TAtom (str "mod"); TComma; TOpen true; TAtom (module_erlang_name m); TComma] ++ ts ++ [TClose true; TClose true; TComma]),
          [Tuple [Atom (str "mod"); Tuple [Atom (module_erlang_name m); t]]].
        split; [apply (starts_with config m _ s t M E); [apply erlang_name_of; reflexivity|exists ts; auto]|]. split.
        * intro b. rewrite T, H. fold (pre ts (lex Plain (125 :: str "}," ++ [10] ++ b))) in R |- *. specialize (R (str "}," ++ [10] ++ b)).
          fold (pre ts (lex Plain (125 :: str "}," ++ [10] ++ b))) in R. rewrite R.
          change (125 :: str "}," ++ [10] ++ b) with ((125 :: str "}," ++ [10]) ++ b).
          rewrite (lex_run Plain (125 :: str "}," ++ [10]) [TClose true; TClose true; TComma] Plain) by (vm_compute; reflexivity). rewrite !pre_pre, <- !app_assoc. reflexivity.
        * intros st out rest. rewrite <- !app_assoc. cbn [app parse add]. rewrite P. cbn [add parse Bool.eqb close rev app]. reflexivity.
      + exists [TOpen true; TAtom (str "mod"); TComma; TOpen true; TAtom (module_erlang_name m); TComma; TOpen false; TClose false; TClose true; TClose true; TComma],
          [Tuple [Atom (str "mod"); Tuple [Atom (module_erlang_name m); List []]]].
        split; [apply (starts_default config m _ M E); apply erlang_name_of; reflexivity|]. split; [|reflexivity].
        intro b. rewrite T, H. change (str "[]" ++ 125 :: str "}," ++ [10] ++ b) with ((str "[]" ++ 125 :: str "}," ++ [10]) ++ b).
        rewrite (lex_run Plain (str "[]" ++ 125 :: str "}," ++ [10]) [TOpen false; TClose false; TClose true; TClose true; TComma] Plain) by (vm_compute; reflexivity). now rewrite pre_pre.
    - exists [], []. split; [apply starts_nothing, M|]. split; [|reflexivity]. intro b. cbn. destruct (lex Plain b); reflexivity.
  Qed.

  Lemma file_says : exists t, consult (render c config modules cached native) = Some [t] /\ says c config modules cached native t.
  Proof.
    destruct start_tokens as (ts & start & S & L & P). destruct names as [N _ _].
    exists (Tuple [Atom (str "application"); Atom (name config); List (start ++
          [Tuple [Atom (str "vsn"); Str (version config)];
           Tuple [Atom (str "applications"); List (map Atom (applications c config))];
           Tuple [Atom (str "description"); Str (description config)];
           Tuple [Atom (str "modules"); List (map Atom (module_list modules cached native))];
           Tuple [Atom (str "registered"); List []]])]).
    split; [|exists start, (applications c config), (module_list modules cached native); repeat split; auto using sorted_order, module_list_NoDup;
      try apply sorted_order; try apply applications_In; apply module_list_In].
    assert (lex Plain (render c config modules cached native) =
      Some ([TOpen true; TAtom (str "application"); TComma; TAtom (name config); TComma; TOpen false] ++ ts ++ rest_tokens)) as LEX.
    { unfold render. fold rest_text.
      rewrite (lex_run Plain (str "{application, ") [TOpen true; TAtom (str "application"); TComma] Plain) by (vm_compute; reflexivity).
      rewrite (lex_run _ _ _ _ _ (run_bare _ N)).
      rewrite (lex_run (Word (rev (name config))) (str ", [") [TAtom (name config); TComma; TOpen false] Plain) by (apply (run_word (name config) 44 (str " [")); [exact N|reflexivity|vm_compute; reflexivity]).
      rewrite (lex_run Plain [10] [] Plain) by reflexivity. rewrite L. rewrite <- (app_nil_r rest_text), (lex_run _ _ _ _ _ rest_run). cbn [lex pre]. rewrite !app_nil_r. reflexivity. }
    unfold consult. rewrite LEX. cbn [app parse add]. unfold rest_tokens, key. cbn [app]. rewrite P.
    destruct start as [|t0 start]; cbn [parse add Bool.eqb close rev app];
      rewrite parse_list; cbn [parse add Bool.eqb close rev app]; rewrite parse_list; cbn [parse add Bool.eqb close rev app]; [reflexivity|].
    rewrite !rev_app_distr, rev_involutive. cbn [rev app]. rewrite <- !app_assoc. reflexivity.
  Qed.
End File.

(** The parser reads the tokens of the builder of Erlang source as the tree they were written for. *)
From Coq Require Import String NArith ZArith List Bool Lia ZifyBool ZifyN.
From Verif Require Import Text TextProofs StringsSpec Erl ErlangSource ErlangSourceSpec ErlangSourceRun
  ErlangSourceScan.
Import ListNotations.
Local Open Scope nat_scope.
Local Open Scope list_scope.

(** ** Reading with enough depth *)
Definition yields {A} (P : nat -> list token -> option (A * list token))
    (ts : list token) (a : A) (rest : list token) : Prop :=
  exists n0, forall n, n0 <= n -> P n ts = Some (a, rest).

Ltac bound acc :=
  match goal with
  | H : yields _ _ _ _ |- _ => let m := fresh "m" in destruct H as [m H]; bound (m + acc)
  | _ => exists acc
  end.
Ltac fuel := red; bound 1; let n := fresh "n" in let L := fresh "L" in intros [|n] L; [lia|]; cbv beta in *.
Ltac use H := rewrite H by lia.

Definition expr0 (n : nat) := expr n 0.

(** Nothing of these continues an expression. *)
Definition opens (ts : list token) : bool :=
  match ts with TSym (Colon | LParen) :: _ => true | _ => false end.
Definition stops (ts : list token) : bool :=
  match ts with
  | TSym (Colon | LParen) :: _ => false
  | TSym s :: _ => match infix_operator s with None => true | Some _ => false end
  | _ => true
  end.
Lemma stops_opens ts : stops ts = true -> opens ts = false.
Proof. destruct ts as [|[s| | | | | | | |] ts]; try reflexivity. destruct s; try reflexivity; discriminate. Qed.
Lemma stops_chained ts p a : stops ts = true -> chained p a ts = false.
Proof.
  intro S. destruct a; try reflexivity. destruct ts as [|[s| | | | | | | |] ts]; try reflexivity.
  cbn. destruct s; try reflexivity; discriminate S.
Qed.

Definition closing (s : sym) : bool :=
  match s with RParen | RBracket | RBrace | RBin => true | _ => false end.
Lemma max_closing n s ts : closing s = true -> max n (TSym s :: ts) = None.
Proof. intro C. destruct n; [reflexivity|]. destruct s; try discriminate C; reflexivity. Qed.
Lemma unary_closing n s ts : closing s = true -> unary n (TSym s :: ts) = None.
Proof.
  intro C. destruct n; [reflexivity|].
  replace (unary (S n) (TSym s :: ts)) with (remote n (TSym s :: ts)) by (destruct s; try discriminate C; reflexivity).
  destruct n; [reflexivity|]. cbn [remote]. rewrite max_closing by exact C. reflexivity.
Qed.
Lemma expr_closing n m s ts : closing s = true -> expr n m (TSym s :: ts) = None.
Proof. intro C. destruct n; [reflexivity|]. cbn [expr]. rewrite unary_closing by exact C. reflexivity. Qed.
Lemma exprs_closing n s ts : closing s = true -> exprs n (TSym s :: ts) = None.
Proof. intro C. destruct n; [reflexivity|]. cbn [exprs]. rewrite expr_closing by exact C. reflexivity. Qed.
Lemma map_fields_closing n s ts : closing s = true -> map_fields n (TSym s :: ts) = None.
Proof. intro C. destruct n; [reflexivity|]. cbn [map_fields]. rewrite expr_closing by exact C. reflexivity. Qed.
Lemma segments_closing n s ts : closing s = true -> segments n (TSym s :: ts) = None.
Proof.
  intro C. destruct n; [reflexivity|]. cbn [segments].
  replace (prefix_operator s) with false by (destruct s; try discriminate C; reflexivity).
  rewrite max_closing by exact C. reflexivity.
Qed.

(** ** Expressions *)
Lemma y_expr min ts l ts' e r : yields unary ts l ts' -> yields (fun n => infix n min l) ts' e r ->
  yields (fun n => expr n min) ts e r.
Proof. intros A B. fuel. cbn [expr]. use A. apply B. lia. Qed.
Lemma y_infix_stop min l r : stops r = true -> yields (fun n => infix n min l) r l r.
Proof.
  intro S. fuel. cbn [infix]. destruct r as [|[s| | | | | | | |] r]; try reflexivity.
  destruct s; try reflexivity; discriminate S.
Qed.
Lemma y_infix s p a min l ts e ts' x r : infix_operator s = Some (p, a) -> min <= p ->
  yields (fun n => expr n (right_level p a)) ts e ts' -> chained p a ts' = false ->
  yields (fun n => infix n min (combine s l e)) ts' x r ->
  yields (fun n => infix n min l) (TSym s :: ts) x r.
Proof.
  intros I M A C B. fuel. cbn [infix]. rewrite I.
  apply Nat.leb_le in M. rewrite M. use A. rewrite C. apply B. lia.
Qed.
Lemma y_stop min ts e r : yields unary ts e r -> stops r = true -> yields (fun n => expr n min) ts e r.
Proof. intros A S. eapply y_expr; [exact A|apply y_infix_stop, S]. Qed.

Lemma y_prefix s ts e r : prefix_operator s = true -> yields unary ts e r ->
  yields unary (TSym s :: ts) (EUnary s e) r.
Proof.
  intros P A. fuel. destruct s; try discriminate P; cbn [unary prefix_operator]; use A; reflexivity.
Qed.
Lemma y_remote ts e r : yields max ts e r -> opens r = false -> yields remote ts e r.
Proof.
  intros A O. fuel. cbn [remote]. use A.
  destruct r as [|[s| | | | | | | |] r]; try reflexivity. destruct s; try reflexivity; discriminate O.
Qed.
Lemma y_call_remote ts f ts' l r : yields max ts f (TSym LParen :: ts') -> yields arguments ts' l r ->
  yields remote ts (ECall f l) r.
Proof. intros A B. fuel. cbn [remote]. use A. use B. reflexivity. Qed.
Lemma y_unary ts e r e' r' : yields max ts e r -> yields remote ts e' r' -> yields unary ts e' r'.
Proof.
  intros A B. fuel. rewrite <- (B n) by lia. specialize (A (S n) ltac:(lia)).
  destruct ts as [|[s| | | | | | | |] ts]; try reflexivity. destruct s; try reflexivity; discriminate A.
Qed.
Lemma y_primary ts e r : yields max ts e r -> opens r = false -> yields unary ts e r.
Proof. intros A O. eapply y_unary; [exact A|apply y_remote; assumption]. Qed.
Lemma y_call ts f ts' l r : yields max ts f (TSym LParen :: ts') -> yields arguments ts' l r ->
  yields unary ts (ECall f l) r.
Proof. intros A B. eapply y_unary; [exact A|eapply y_call_remote; eassumption]. Qed.
Lemma y_atom a r : yields max (TAtom a :: r) (EAtom a) r.
Proof. fuel. reflexivity. Qed.
Lemma y_remote_call m f ts l r : yields arguments ts l r ->
  yields unary (TAtom m :: TSym Colon :: TAtom f :: TSym LParen :: ts)
    (ECall (ERemote (EAtom m) (EAtom f)) l) r.
Proof.
  intro A. eapply y_unary; [apply y_atom|]. destruct A as [m0 A]. exists (S (S m0)).
  intros [|[|n]] L; [lia|lia|]. cbn [remote max]. use A. reflexivity.
Qed.
Lemma y_paren ts e r : yields expr0 ts e (TSym RParen :: r) -> yields max (TSym LParen :: ts) e r.
Proof. unfold expr0. intro A. fuel. cbn [max]. use A. reflexivity. Qed.

(** ** Lists *)
Fixpoint separated (sep : list token) (first : bool) (l : list (list token)) : list token :=
  match l with
  | [] => []
  | x :: l => (if first then [] else sep) ++ x ++ separated sep false l
  end.
Definition commas := separated [TSym Comma] true.
Lemma tokens_items sep pre l : tokens pre = [] -> forall first,
  tokens (items sep pre first l) = separated (tokens sep) first (map tokens l).
Proof.
  intro P. induction l as [|x l IH]; intro first; [reflexivity|].
  cbn [items map separated]. rewrite !tokens_app, P, IH. destruct first; reflexivity.
Qed.
Lemma separated_false sep l r : separated sep false l ++ r =
  match l with [] => r | _ :: _ => sep ++ separated sep true l ++ r end.
Proof. destruct l; [reflexivity|]. cbn [separated app]. rewrite <- !app_assoc. reflexivity. Qed.

Definition reads_as (x : list token) (e : erl) : Prop :=
  forall r, stops r = true -> yields expr0 (x ++ r) e r.
Definition no_comma (ts : list token) : bool := match ts with TSym Comma :: _ => false | _ => true end.

Lemma y_exprs xs es : Forall2 reads_as xs es -> xs <> [] -> forall r, stops r = true -> no_comma r = true ->
  yields exprs (commas xs ++ r) es r.
Proof.
  unfold commas. induction 1 as [|x e xs es X F IH]; intros N r S C; [contradiction N; reflexivity|].
  cbn [separated app]. rewrite <- app_assoc, separated_false.
  destruct xs as [|x' xs].
  - inversion F; subst. specialize (X r S). unfold expr0 in X. fuel. cbn [exprs]. use X.
    destruct r as [|[s| | | | | | | |] r]; try reflexivity. destruct s; try reflexivity; discriminate C.
  - specialize (IH ltac:(discriminate) r S C).
    specialize (X ([TSym Comma] ++ separated [TSym Comma] true (x' :: xs) ++ r) eq_refl).
    set (rest := separated [TSym Comma] true (x' :: xs) ++ r) in *.
    unfold expr0 in X. fuel. cbn [exprs]. use X. cbn [app]. use IH. reflexivity.
Qed.
Lemma y_arguments xs es r : Forall2 reads_as xs es ->
  yields arguments (commas xs ++ TSym RParen :: r) es r.
Proof.
  intro F. destruct xs as [|x xs].
  - inversion F; subst. fuel. reflexivity.
  - pose proof (y_exprs _ _ F ltac:(discriminate) (TSym RParen :: r) eq_refl eq_refl) as Y.
    set (ts := commas (x :: xs) ++ TSym RParen :: r) in *. clearbody ts. fuel. cbn [arguments].
    use Y. destruct ts as [|[s| | | | | | | |] ts]; try reflexivity.
    destruct s; try reflexivity. specialize (Y n ltac:(lia)). rewrite exprs_closing in Y by reflexivity. discriminate Y.
Qed.
Lemma y_tuple xs es r : Forall2 reads_as xs es ->
  yields max (TSym LBrace :: commas xs ++ TSym RBrace :: r) (ETuple es) r.
Proof.
  intro F. destruct xs as [|x xs].
  - inversion F; subst. fuel. reflexivity.
  - pose proof (y_exprs _ _ F ltac:(discriminate) (TSym RBrace :: r) eq_refl eq_refl) as Y.
    set (ts := commas (x :: xs) ++ TSym RBrace :: r) in *. clearbody ts. fuel. cbn [max].
    use Y. destruct ts as [|[s| | | | | | | |] ts]; try reflexivity.
    destruct s; try reflexivity. specialize (Y n ltac:(lia)). rewrite exprs_closing in Y by reflexivity. discriminate Y.
Qed.
Lemma y_block xs es r : Forall2 reads_as xs es -> xs <> [] ->
  yields max (TSym KBegin :: commas xs ++ TSym KEnd :: r) (EBlock es) r.
Proof.
  intros F N. pose proof (y_exprs _ _ F N (TSym KEnd :: r) eq_refl eq_refl) as Y.
  fuel. cbn [max]. use Y. reflexivity.
Qed.
Lemma y_fun xs es ys fs r : Forall2 reads_as xs es -> Forall2 reads_as ys fs -> ys <> [] ->
  yields max (TSym KFun :: TSym LParen :: commas xs ++ TSym RParen :: TSym Arrow :: commas ys ++ TSym KEnd :: r)
    (EFun es fs) r.
Proof.
  intros F G N. pose proof (y_exprs _ _ G N (TSym KEnd :: r) eq_refl eq_refl) as Y.
  pose proof (y_arguments _ _ (TSym Arrow :: commas ys ++ TSym KEnd :: r) F) as X.
  fuel. cbn [max]. use X. use Y. reflexivity.
Qed.
Lemma y_list ts h ts' t r : yields expr0 ts h ts' -> yields tail ts' t r ->
  yields max (TSym LBracket :: ts) (ECons h t) r.
Proof.
  unfold expr0. intros A B. fuel. cbn [max]. use A. use B.
  destruct ts as [|[s| | | | | | | |] ts]; try reflexivity.
  destruct s; try reflexivity. specialize (A n ltac:(lia)). rewrite expr_closing in A by reflexivity. discriminate A.
Qed.
Lemma y_tail_cons ts h ts' t r : yields expr0 ts h ts' -> yields tail ts' t r ->
  yields tail (TSym Comma :: ts) (ECons h t) r.
Proof. unfold expr0. intros A B. fuel. cbn [tail]. use A. use B. reflexivity. Qed.
Lemma y_tail_bar ts e r : yields expr0 ts e (TSym RBracket :: r) -> yields tail (TSym Bar :: ts) e r.
Proof. unfold expr0. intros A. fuel. cbn [tail]. use A. reflexivity. Qed.

(** Fields of a map. *)
Definition reads_field (x : list token) (f : erl * erl) : Prop :=
  exists a b, x = a ++ TSym FatArrow :: b /\ reads_as a (fst f) /\ reads_as b (snd f).
Lemma y_map_fields xs fs : Forall2 reads_field xs fs -> xs <> [] -> forall r,
  yields map_fields (commas xs ++ TSym RBrace :: r) fs r.
Proof.
  unfold commas. induction 1 as [|x f xs fs X F IH]; intros N r; [contradiction N; reflexivity|].
  destruct X as (a & b & -> & A & B). destruct f as [ea eb]. cbn [fst snd] in *.
  cbn [separated app]. rewrite <- !app_assoc, separated_false. cbn [app].
  specialize (A (TSym FatArrow :: b ++ match xs with [] => TSym RBrace :: r
    | _ => [TSym Comma] ++ separated [TSym Comma] true xs ++ TSym RBrace :: r end) eq_refl).
  destruct xs as [|x' xs].
  - inversion F; subst. specialize (B (TSym RBrace :: r) eq_refl). unfold expr0 in *. fuel.
    cbn [map_fields]. use A. use B. reflexivity.
  - specialize (IH ltac:(discriminate) r).
    specialize (B ([TSym Comma] ++ separated [TSym Comma] true (x' :: xs) ++ TSym RBrace :: r) eq_refl).
    set (rest := separated [TSym Comma] true (x' :: xs) ++ TSym RBrace :: r) in *.
    unfold expr0 in *. fuel. cbn [map_fields]. use A. use B. cbn [app]. use IH. reflexivity.
Qed.
Lemma y_map xs fs r : Forall2 reads_field xs fs ->
  yields unary (TSym Hash :: TSym LBrace :: commas xs ++ TSym RBrace :: r) (EMap fs) r.
Proof.
  intro F. destruct xs as [|x xs].
  - inversion F; subst. fuel. reflexivity.
  - pose proof (y_map_fields _ _ F ltac:(discriminate) r) as Y.
    set (ts := commas (x :: xs) ++ TSym RBrace :: r) in *. clearbody ts. fuel. cbn [unary].
    use Y. destruct ts as [|[s| | | | | | | |] ts]; try reflexivity.
    destruct s; try reflexivity. specialize (Y n ltac:(lia)).
    rewrite map_fields_closing in Y by reflexivity. discriminate Y.
Qed.

(** Segments. *)
Definition segment := (erl * (option erl * list (text * option N)))%type.
Definition size_tokens (s : option (list token)) : list token :=
  match s with Some z => TSym Colon :: z | None => [] end.
Definition specifier_tokens (s : text * option N) : list token :=
  match s with (a, None) => [TAtom a] | (a, Some u) => [TAtom a; TSym Colon; TInt u] end.
Definition specifiers_tokens (l : list (text * option N)) : list token :=
  match l with [] => [] | l => TSym Slash :: separated [TSym Minus] true (map specifier_tokens l) end.
Definition reads_value (x : list token) (e : erl) : Prop :=
  (forall r, yields max (x ++ r) e r) \/
  (exists s y f, x = TSym s :: y /\ prefix_operator s = true /\ e = EUnary s f /\ forall r, yields max (y ++ r) f r).
Definition reads_segment (x : list token) (f : segment) : Prop :=
  exists v s, x = v ++ size_tokens s ++ specifiers_tokens (snd (snd f)) /\ reads_value v (fst f) /\
    match s, fst (snd f) with
    | Some z, Some e => forall r, yields max (z ++ r) e r
    | None, None => True
    | _, _ => False
    end.
Lemma y_specifiers l : l <> [] -> forall r,
  match r with TSym (Minus | Colon) :: _ => false | _ => true end = true ->
  yields specifiers (separated [TSym Minus] true (map specifier_tokens l) ++ r) l r.
Proof.
  induction l as [|[a u] l IH]; intros N r S; [contradiction N; reflexivity|].
  cbn [map separated app]. rewrite <- app_assoc, separated_false.
  destruct l as [|s l].
  - cbn [map]. fuel. cbn [specifiers]. destruct u as [u|]; cbn [specifier_tokens app].
    + destruct r as [|[s| | | | | | | |] r]; try reflexivity. destruct s; try reflexivity; discriminate S.
    + destruct r as [|[s| | | | | | | |] r]; try reflexivity. destruct s; try reflexivity; discriminate S.
  - specialize (IH ltac:(discriminate) r S). cbn [map] in *.
    set (ts := separated [TSym Minus] true (specifier_tokens s :: map specifier_tokens l) ++ r) in *.
    clearbody ts. fuel. cbn [specifiers].
    destruct u as [u|]; cbn [specifier_tokens app]; use IH; reflexivity.
Qed.
Definition segment_head (n : nat) (ts : list token) : option (erl * list token) :=
  match ts with
  | TSym s :: ts' =>
      if prefix_operator s then match max n ts' with Some (e, ts) => Some (EUnary s e, ts) | None => None end
      else max n ts
  | _ => max n ts
  end.
Lemma y_value x e r : reads_value x e -> yields segment_head (x ++ r) e r.
Proof.
  intros [X|(s & y & f & -> & P & -> & Y)].
  - specialize (X r). fuel. specialize (X (S n) ltac:(lia)). unfold segment_head.
    destruct (x ++ r) as [|[s| | | | | | | |] ts]; try exact X.
    destruct s; try exact X; discriminate X.
  - specialize (Y r). fuel. cbn [app segment_head]. rewrite P. use Y. reflexivity.
Qed.
Definition segment_size (n : nat) (ts : list token) : option (option erl * list token) :=
  match ts with
  | TSym Colon :: ts => match max n ts with Some (e, ts) => Some (Some e, ts) | None => None end
  | _ => Some (None, ts)
  end.
Definition segment_specifiers (n : nat) (ts : list token) : option (list (text * option N) * list token) :=
  match ts with TSym Slash :: ts => specifiers n ts | _ => Some ([], ts) end.
Definition segment_end (r : list token) : bool :=
  match r with TSym (Comma | RBin) :: _ => true | _ => false end.
Lemma y_segment x f r : reads_segment x f -> segment_end r = true ->
  exists r1 r2, yields segment_head (x ++ r) (fst f) r1 /\ yields segment_size r1 (fst (snd f)) r2 /\
    yields segment_specifiers r2 (snd (snd f)) r.
Proof.
  intros (v & s & -> & V & S) E. destruct f as [e [z l]]. cbn [fst snd] in *.
  exists (size_tokens s ++ specifiers_tokens l ++ r), (specifiers_tokens l ++ r).
  rewrite <- !app_assoc. split; [apply y_value, V|split].
  - destruct s as [t|], z as [z|]; try contradiction; cbn [size_tokens app].
    + specialize (S (specifiers_tokens l ++ r)). fuel. cbn [segment_size]. use S. reflexivity.
    + fuel. destruct l; [|reflexivity]. cbn [specifiers_tokens app].
      destruct r as [|[q| | | | | | | |] r]; try discriminate E; destruct q; try discriminate E; reflexivity.
  - destruct l as [|s0 l].
    + fuel. cbn [specifiers_tokens app].
      destruct r as [|[q| | | | | | | |] r]; try discriminate E; destruct q; try discriminate E; reflexivity.
    + cbn [specifiers_tokens app]. apply (y_specifiers (s0 :: l)); [discriminate|].
      destruct r as [|[q| | | | | | | |] r]; try discriminate E; destruct q; try discriminate E; reflexivity.
Qed.
Lemma segments_step n ts : segments (S n) ts =
  match segment_head n ts with
  | Some (v, ts) =>
      match segment_size n ts with
      | Some (size, ts) =>
          match segment_specifiers n ts with
          | Some (specs, ts) =>
              match ts with
              | TSym Comma :: ts =>
                  match segments n ts with Some (l, ts) => Some ((v, (size, specs)) :: l, ts) | None => None end
              | TSym RBin :: ts => Some ([(v, (size, specs))], ts)
              | _ => None
              end
          | None => None
          end
      | None => None
      end
  | None => None
  end.
Proof. reflexivity. Qed.
Lemma y_segments xs fs : Forall2 reads_segment xs fs -> xs <> [] -> forall r,
  yields segments (commas xs ++ TSym RBin :: r) fs r.
Proof.
  unfold commas. induction 1 as [|x f xs fs X F IH]; intros N r; [contradiction N; reflexivity|].
  cbn [separated app]. rewrite <- !app_assoc, separated_false.
  destruct xs as [|x' xs].
  - inversion F; subst. destruct (y_segment x f (TSym RBin :: r) X eq_refl) as (r1 & r2 & A & B & C).
    destruct f as [e [z l]]. cbn [fst snd] in *. fuel. rewrite segments_step. use A. use B. use C. reflexivity.
  - specialize (IH ltac:(discriminate) r).
    destruct (y_segment x f ([TSym Comma] ++ separated [TSym Comma] true (x' :: xs) ++ TSym RBin :: r) X eq_refl)
      as (r1 & r2 & A & B & C).
    set (rest := separated [TSym Comma] true (x' :: xs) ++ TSym RBin :: r) in *.
    destruct f as [e [z l]]. cbn [fst snd] in *. fuel. rewrite segments_step.
    use A. use B. use C. cbn [app]. use IH. reflexivity.
Qed.
Lemma y_bits xs fs r : Forall2 reads_segment xs fs ->
  yields max (TSym LBin :: commas xs ++ TSym RBin :: r) (EBits fs) r.
Proof.
  intro F. destruct xs as [|x xs].
  - inversion F; subst. fuel. reflexivity.
  - pose proof (y_segments _ _ F ltac:(discriminate) r) as Y.
    set (ts := commas (x :: xs) ++ TSym RBin :: r) in *. clearbody ts. fuel. cbn [max].
    use Y. destruct ts as [|[s| | | | | | | |] ts]; try reflexivity.
    destruct s; try reflexivity. specialize (Y n ltac:(lia)).
    rewrite segments_closing in Y by reflexivity. discriminate Y.
Qed.

(** Clauses. *)
Definition guard_tokens (g : option (list token)) : list token :=
  match g with Some g => TSym KWhen :: g | None => [] end.
Definition reads_clause (x : list token) (c : erl * (list erl * list erl)) : Prop :=
  exists p g ys, x = p ++ guard_tokens g ++ TSym Arrow :: commas ys /\ reads_as p (fst c) /\
    match g, fst (snd c) with
    | Some g, [e] => reads_as g e
    | None, [] => True
    | _, _ => False
    end /\ Forall2 reads_as ys (snd (snd c)) /\ ys <> [].
Definition clause_guard (n : nat) (ts : list token) : option (list erl * list token) :=
  match ts with TSym KWhen :: ts => exprs n ts | _ => Some ([], ts) end.
Lemma clauses_step n ts : clauses (S n) ts =
  match expr n 0 ts with
  | Some (p, ts) =>
      match clause_guard n ts with
      | Some (g, ts) =>
          match ts with
          | TSym Arrow :: ts =>
              match exprs n ts with
              | Some (l, ts) =>
                  match ts with
                  | TSym Semicolon :: ts =>
                      match clauses n ts with Some (cs, ts) => Some ((p, (g, l)) :: cs, ts) | None => None end
                  | TSym KEnd :: ts => Some ([(p, (g, l))], ts)
                  | _ => None
                  end
              | None => None
              end
          | _ => None
          end
      | None => None
      end
  | None => None
  end.
Proof. reflexivity. Qed.
Lemma y_clause x c r : reads_clause x c -> match r with TSym (Semicolon | KEnd) :: _ => true | _ => false end = true ->
  exists r1 r2, yields expr0 (x ++ r) (fst c) r1 /\ yields clause_guard r1 (fst (snd c)) (TSym Arrow :: r2) /\
    yields exprs r2 (snd (snd c)) r.
Proof.
  intros (p & g & ys & -> & P & G & Y & N) E. destruct c as [e [eg eb]]. cbn [fst snd] in *.
  exists (guard_tokens g ++ TSym Arrow :: commas ys ++ r), (commas ys ++ r).
  rewrite <- !app_assoc. cbn [app]. rewrite <- ?app_assoc. split; [apply P; destruct g; reflexivity|split].
  - destruct g as [g|], eg as [|e1 [|e2 eg]]; try contradiction; cbn [guard_tokens app].
    + assert (F : Forall2 reads_as [g] [e1]) by (constructor; [exact G|constructor]).
      pose proof (y_exprs _ _ F ltac:(discriminate) (TSym Arrow :: commas ys ++ r) eq_refl eq_refl) as Z.
      unfold commas at 1 in Z. cbn [separated app] in Z. rewrite app_nil_r in Z.
      unfold clause_guard. exact Z.
    + fuel. reflexivity.
  - apply y_exprs; [exact Y|exact N| |];
      destruct r as [|[q| | | | | | | |] r]; try discriminate E; destruct q; try discriminate E; reflexivity.
Qed.
Lemma y_clauses xs cs : Forall2 reads_clause xs cs -> xs <> [] -> forall r,
  yields clauses (separated [TSym Semicolon] true xs ++ TSym KEnd :: r) cs r.
Proof.
  induction 1 as [|x c xs cs X F IH]; intros N r; [contradiction N; reflexivity|].
  cbn [separated app]. rewrite <- !app_assoc, separated_false.
  destruct xs as [|x' xs].
  - inversion F; subst. destruct (y_clause x c (TSym KEnd :: r) X eq_refl) as (r1 & r2 & A & B & C).
    unfold expr0 in A. destruct c as [e [z l]]. cbn [fst snd] in *. fuel. rewrite clauses_step. use A. use B. use C. reflexivity.
  - specialize (IH ltac:(discriminate) r).
    destruct (y_clause x c ([TSym Semicolon] ++ separated [TSym Semicolon] true (x' :: xs) ++ TSym KEnd :: r) X eq_refl)
      as (r1 & r2 & A & B & C).
    set (rest := separated [TSym Semicolon] true (x' :: xs) ++ TSym KEnd :: r) in *.
    unfold expr0 in A. destruct c as [e [z l]]. cbn [fst snd] in *. fuel. rewrite clauses_step.
    use A. use B. use C. cbn [app]. use IH. reflexivity.
Qed.
Lemma y_case ts e ts' cs r : yields expr0 ts e (TSym KOf :: ts') -> yields clauses ts' cs r ->
  yields max (TSym KCase :: ts) (ECase e cs) r.
Proof. unfold expr0. intros A B. fuel. cbn [max]. use A. use B. reflexivity. Qed.

(** ** Nodes *)
Definition val (sv : bool) (n : node) : erl :=
  match n with NString _ v => if sv then EString v else EBinary v | n => meaning n end.
Definition is_binary (n : node) : bool := match n with NBinary _ _ _ => true | _ => false end.
Definition primary (n : node) : bool := callable n && negb (is_call n).

Lemma tokens_nl i : tokens (nl i) = [].
Proof. cbn. induction i; [reflexivity|exact IHi]. Qed.
Lemma tokens_list l : tokens (items comma [] true l) = commas (map tokens l).
Proof. apply tokens_items. reflexivity. Qed.
Lemma tokens_lines i l : tokens (items (sy Comma) (nl i) true l) = commas (map tokens l).
Proof. apply tokens_items, tokens_nl. Qed.
Lemma tokens_clauses i l : tokens (items (sy Semicolon ++ nl 0) (nl i) true l) = separated [TSym Semicolon] true (map tokens l).
Proof. apply tokens_items, tokens_nl. Qed.
Lemma tokens_sy s : tokens (sy s) = [TSym s]. Proof. reflexivity. Qed.
Lemma tokens_sp : tokens sp = []. Proof. reflexivity. Qed.
Lemma tokens_atm a : tokens (atm a) = [TAtom a]. Proof. reflexivity. Qed.
Lemma tokens_var a : tokens (var a) = [TVar a]. Proof. reflexivity. Qed.
Lemma tokens_num a : tokens (num a) = [TInt a]. Proof. reflexivity. Qed.
Ltac toks :=
  rewrite ?tokens_app, ?tokens_list, ?tokens_lines, ?tokens_clauses, ?tokens_nl, ?tokens_sp, ?tokens_sy,
    ?tokens_atm, ?tokens_var, ?tokens_num, <- ?app_assoc; cbn [app].
Lemma tokens_parens b l : tokens (parens b l) = if b then TSym LParen :: tokens l ++ [TSym RParen] else tokens l.
Proof. destruct b; [|reflexivity]. cbn [parens]. toks. reflexivity. Qed.

Lemma forall2_map {A B C} (R : B -> C -> Prop) (f : A -> B) (g : A -> C) l :
  (forall a, In a l -> R (f a) (g a)) -> Forall2 R (map f l) (map g l).
Proof.
  induction l as [|a l IH]; intro H; [constructor|]. cbn [map].
  constructor; [apply H; left; reflexivity|apply IH; intros; apply H; right; assumption].
Qed.
Lemma map_nonempty {A B} (f : A -> B) l : l <> [] -> map f l <> [].
Proof. destruct l; [contradiction|discriminate]. Qed.
Lemma match_onto_assoc a : forall b e, match_onto (match_onto a b) e = match_onto a (match_onto b e).
Proof. induction a; intros b' e'; try reflexivity. cbn [match_onto]. rewrite IHa2. reflexivity. Qed.
Lemma match_onto_plain a e : match a with EMatch _ _ => False | _ => True end -> match_onto a e = EMatch a e.
Proof. destruct a; intro H; try reflexivity. contradiction. Qed.
Lemma meaning_plain n : is_match n = false -> match meaning n with EMatch _ _ => False | _ => True end.
Proof.
  destruct n; intro H; try discriminate H; try exact I; cbn [meaning].
  - unfold int_meaning. destruct (z <? 0)%Z; exact I.
  - unfold float_meaning. destruct (negative f); [exact I|]. destruct (_ && _); exact I.
Qed.

Lemma tokens_specifiers l : tokens (lex_specifiers l) = specifiers_tokens (specifiers_meaning l).
Proof.
  unfold lex_specifiers, specifiers_meaning.
  replace (filter (fun s => negb (has_unit s)) l ++ filter has_unit l) with (sort_specifiers l).
  2:{ unfold sort_specifiers. f_equal; apply filter_ext; intros []; reflexivity. }
  destruct (sort_specifiers l) as [|s l']; [reflexivity|].
  set (l0 := s :: l'). unfold specifiers_tokens. replace (map specifier_meaning l0) with (specifier_meaning s :: map specifier_meaning l') by reflexivity.
  change (specifier_meaning s :: map specifier_meaning l') with (map specifier_meaning l0).
  rewrite tokens_app, tokens_items by reflexivity. rewrite tokens_sy. cbn [app]. f_equal.
  rewrite !map_map. f_equal. apply map_ext. intros []; reflexivity.
Qed.

Record ok (n : node) : Prop := Ok {
  ok_max : forall k sv wrap i, wf k n -> primary n = true ->
    forall r, yields max (tokens (layout false sv wrap i k n) ++ r) (val sv n) r;
  ok_unary : forall k sv wrap i, wf k n -> is_match n = false -> wrap = true \/ is_binary n = false ->
    forall r, opens r = false -> yields unary (tokens (layout false sv wrap i k n) ++ r) (val sv n) r;
  ok_expr : forall k sv i min, wf k n -> (sv = true -> is_match n = false) -> min <= 100 ->
    forall r, stops r = true ->
      yields (fun m => expr m min) (tokens (layout false sv false i k n) ++ r) (val sv n) r;
  ok_onto : forall i min ts e r, wf Pattern n -> min <= 100 ->
    yields (fun m => expr m 100) ts e r -> stops r = true ->
    yields (fun m => expr m min) (tokens (layout false false false i Pattern n) ++ TSym Equals :: ts)
      (match_onto (meaning n) e) r;
  ok_tail : forall k i, wf k n ->
    forall r, yields tail (tokens (layout true false false i k n) ++ r) (meaning n) r }.

Lemma val_false n : val false n = meaning n.
Proof. destruct n; reflexivity. Qed.
Lemma val_other sv n : is_string n = false -> val sv n = meaning n.
Proof. destruct n; intro H; try reflexivity. discriminate H. Qed.
Lemma ok_reads n k i : ok n -> wf k n -> reads_as (tokens (layout false false false i k n)) (meaning n).
Proof.
  intros O W r S. rewrite <- val_false. apply (ok_expr n O k false i 0 W); [discriminate|lia|exact S].
Qed.
Lemma ok_list l k i : (forall n, In n l -> ok n) -> each (wf k) l ->
  Forall2 reads_as (map tokens (map (layout false false false i k) l)) (map meaning l).
Proof.
  intros O W. rewrite map_map. apply forall2_map. intros n I. apply ok_reads; [apply O, I|].
  apply (in_each _ _ W), I.
Qed.
Lemma vars_read l : Forall2 reads_as (map tokens (map var l)) (map EVar l).
Proof.
  rewrite map_map. apply forall2_map. intros x _ r S. apply (y_stop 0); [|exact S].
  apply y_primary; [|apply stops_opens, S]. fuel. reflexivity.
Qed.

Lemma primary_has_sign n : primary n = true -> has_sign n = false.
Proof.
  unfold primary, callable. intro P. apply andb_prop in P. destruct P as [P _].
  destruct n; try reflexivity; apply negb_true_iff in P; exact P.
Qed.
Lemma float_tokens f : tokens (lex_float f) =
  match float_meaning f with
  | EUnary s (EFloat w r) => [TSym s; TFloat w r] | EFloat w r => [TFloat w r] | _ => [] end.
Proof.
  unfold lex_float, float_meaning. cbv zeta. change (forallb (N.eqb 48)) with zeros.
  destruct (negative f); [reflexivity|]. destruct (zeros (whole f) && zeros (fraction f)); reflexivity.
Qed.
Lemma float_shape f : exists w r, float_meaning f = EFloat w r \/
  exists s, prefix_operator s = true /\ float_meaning f = EUnary s (EFloat w r).
Proof.
  unfold float_meaning. cbv zeta. eexists _, _.
  destruct (negative f); [right; exists Minus; split; reflexivity|].
  destruct (_ && _); [right; exists Plus; split; reflexivity|left; reflexivity].
Qed.
Lemma simple_value n sv wrap i k : ok n -> wf k n -> simple k n = true ->
  reads_value (tokens (layout false sv wrap i k n)) (val sv n).
Proof.
  intros O W S. destruct (primary n) eqn:P.
  - left. apply (ok_max n O); assumption.
  - right. destruct n; try discriminate S; try discriminate P; cbn [layout andb negb is_list val meaning].
    + unfold primary, callable in P. cbn [has_sign is_call] in P. unfold lex_int, int_meaning.
      destruct (z <? 0)%Z; [|discriminate P]. exists Minus, [TInt (Z.abs_N z)], (EInt (Z.abs_N z)).
      repeat split. intro r. fuel. reflexivity.
    + rewrite float_tokens. destruct (float_shape f) as (w & q & [E|(s & Q & E)]).
      * unfold primary, callable in P. cbn [has_sign is_call] in P. rewrite E in P. discriminate P.
      * rewrite E. exists s, [TFloat w q], (EFloat w q). repeat split; [exact Q|]. intro r. fuel. reflexivity.
Qed.

Theorem all_ok : forall m n, size n < m -> ok n.
Proof.
  induction m as [|m IH]; intros n L; [lia|].
  assert (SUB : forall l, list_sum (map size l) < m -> forall x, In x l -> ok x).
  { intros l S x I. apply IH. pose proof (in_sum size l x I). lia. }
  assert (M : forall k sv wrap i, wf k n -> primary n = true ->
    forall r, yields max (tokens (layout false sv wrap i k n) ++ r) (val sv n) r).
  { intros k sv wrap i W P r. pose proof (primary_has_sign n P) as HS.
    destruct n; try discriminate P; cbn [layout andb val meaning]; cbn [size] in L; cbn [wf] in W.
    - fuel. reflexivity.
    - fuel. reflexivity.
    - cbn [has_sign] in HS. unfold lex_int, int_meaning. rewrite HS. fuel. reflexivity.
    - cbn [has_sign] in HS. rewrite float_tokens. destruct (float_shape f) as (w & q & [E|(s & Q & E)]).
      + rewrite E. fuel. reflexivity.
      + rewrite E in HS. discriminate HS.
    - destruct sv; fuel; reflexivity.
    - fuel. reflexivity.
    - toks. apply y_tuple, ok_list; [apply SUB; lia|exact W].
    - fuel. reflexivity.
    - destruct W as [Wh Wt]. toks.
      apply y_list with (ts' := tokens (layout true false false i k n2) ++ r).
      + apply ok_reads; [apply IH; lia|exact Wh|]. destruct n2; reflexivity.
      + apply ok_tail; [apply IH; lia|exact Wt].
    - toks. apply y_bits. rewrite map_map. apply forall2_map. intros [v [s specs]] I.
      pose proof (in_each _ _ W _ I) as (Wv & Mv & Ws).
      apply (in_sum (fun '(v, (s, _)) => size v + match s with Some n => size n | None => 0 end)) in I.
      assert (Ov : ok v) by (apply IH; lia).
      exists (tokens (parens (negb (simple k v)) (layout false true false i k v))),
        (option_map (fun n => tokens (parens (negb (simple Expression n)) (layout false false false i Expression n))) s).
      cbn [fst snd]. split; [|split].
      + rewrite !tokens_app, tokens_specifiers. f_equal. f_equal. destruct s; [|reflexivity]. toks. reflexivity.
      + rewrite tokens_parens. change (match v with NString _ value => EString value | _ => meaning v end) with (val true v).
        destruct (simple k v) eqn:Sv; cbn [negb].
        * apply simple_value; assumption.
        * left. intro r'. cbn [app]. rewrite <- app_assoc. apply y_paren. cbn [app].
          apply (ok_expr v Ov k true i 0 Wv); [intro; exact Mv|lia|reflexivity].
      + destruct s as [s|]; [|exact Logic.I]. cbn [option_map]. destruct Ws as [Ws Hs].
        assert (Os : ok s) by (apply IH; lia). intro r'. rewrite tokens_parens, <- (val_false s).
        destruct (simple Expression s) eqn:Ss; cbn [negb].
        * apply (ok_max s Os); [exact Ws|]. unfold primary.
          destruct s; try discriminate Ss; try reflexivity; unfold callable; rewrite Hs; reflexivity.
        * cbn [app]. rewrite <- app_assoc. apply y_paren. cbn [app].
          apply (ok_expr s Os Expression false i 0 Ws); [discriminate|lia|reflexivity].
    - destruct W as (-> & N & W). toks. apply y_block; [apply ok_list; [apply SUB; lia|exact W]|].
      apply map_nonempty, map_nonempty, N.
    - toks. destruct module as [m'|]; toks; fuel; reflexivity.
    - destruct W as (-> & Wl & N & W). toks. apply y_fun; [apply vars_read|apply ok_list; [apply SUB; lia|exact W]|].
      apply map_nonempty, map_nonempty, N.
    - destruct W as (-> & Wn & N & W). toks. eapply y_case; [apply ok_reads; [apply IH; lia|exact Wn|reflexivity]|].
      apply y_clauses; [|apply map_nonempty, map_nonempty, N].
      rewrite map_map. apply forall2_map. intros [p [g body]] I.
      pose proof (in_each _ _ W _ I) as (Wp & Wg & Nb & Wb).
      apply (in_sum (fun '(p, (g, b)) =>
          size p + match g with Some n => size n | None => 0 end + list_sum (map size b))) in I.
      exists (tokens (layout false false false (i + 4) Pattern p)),
        (option_map (fun g => tokens (layout false false false (i + 4) Expression g)) g),
        (map tokens (map (layout false false false (i + 4 + 4) Expression) body)).
      cbn [fst snd]. split; [|split; [|split; [|split]]].
      + destruct g; toks; reflexivity.
      + apply ok_reads; [apply IH; lia|exact Wp].
      + destruct g as [g|]; [|exact Logic.I]. apply ok_reads; [apply IH; lia|exact Wg].
      + apply ok_list; [apply SUB; lia|exact Wb].
      + apply map_nonempty, map_nonempty, Nb. }
  assert (EB : is_binary n = true -> forall k sv i min, wf k n -> min <= 100 -> forall r, stops r = true ->
      yields (fun m => expr m min) (tokens (layout false sv false i k n) ++ r) (val sv n) r).
  { intros B k sv i min W Lm r S. destruct n; try discriminate B. cbn [layout andb parens val meaning].
    cbn [size] in L. destruct W as (-> & Bo & Wa & Wb & Ma & Mb). toks. rewrite <- (val_false n1), <- (val_false n2).
    assert (I : exists p a, infix_operator operator = Some (p, a) /\ 100 <= p /\ combine operator = EOp operator).
    { clear - Bo. destruct operator; try discriminate Bo; eexists _, _; (split; [reflexivity|split; [lia|reflexivity]]). }
    destruct I as (p & a & I & Lp & Cm).
    eapply y_expr.
    - apply ok_unary; [apply IH; lia|exact Wa|exact Ma|left; reflexivity|].
      destruct operator; try discriminate Bo; reflexivity.
    - eapply y_infix; [exact I|lia| |apply stops_chained, S|].
      + apply y_stop; [|exact S].
        apply ok_unary; [apply IH; lia|exact Wb|exact Mb|left; reflexivity|apply stops_opens, S].
      + rewrite Cm. apply y_infix_stop, S. }
  assert (U : forall k sv wrap i, wf k n -> is_match n = false -> wrap = true \/ is_binary n = false ->
    forall r, opens r = false -> yields unary (tokens (layout false sv wrap i k n) ++ r) (val sv n) r).
  { intros k sv wrap i W Mn B r O.
    destruct (primary n) eqn:P; [apply y_primary; [apply (M k sv wrap i W eq_refl)|exact O]|].
    destruct n; try discriminate Mn; try discriminate P; cbn [layout andb val meaning]; cbn [size] in L; cbn [wf] in W.
    - unfold primary, callable in P. cbn [has_sign is_call] in P. unfold lex_int, int_meaning.
      destruct (z <? 0)%Z; [|discriminate P]. apply y_prefix; [reflexivity|]. apply y_primary; [|exact O]. fuel. reflexivity.
    - rewrite float_tokens. destruct (float_shape f) as (w & q & [E|(s & Q & E)]); rewrite E.
      + unfold primary, callable in P. cbn [has_sign is_call] in P. rewrite E in P. discriminate P.
      + apply y_prefix; [exact Q|]. apply y_primary; [|exact O]. fuel. reflexivity.
    - destruct W as [-> W]. toks. apply y_map. rewrite map_map. apply forall2_map. intros [a b] I.
      pose proof (in_each _ _ W _ I) as (Wa & Wb). apply (in_sum (fun '(a, b) => size a + size b)) in I.
      exists (tokens (layout false false false (i + 4) Expression a)), (tokens (layout false false false (i + 4) Expression b)).
      cbn [fst snd]. split; [toks; reflexivity|]. split; (apply ok_reads; [apply IH; lia|assumption]).
    - destruct W as (-> & Wf & C & W). toks.
      apply y_call with (ts' := commas (map tokens (map (layout false false false i Expression) arguments)) ++ TSym RParen :: r).
      + rewrite tokens_parens. assert (Of : ok n) by (apply IH; lia).
        destruct (is_call n) eqn:IC.
        * cbn [app]. rewrite <- app_assoc. apply y_paren. cbn [app]. apply ok_reads; [exact Of|exact Wf|reflexivity].
        * rewrite <- (val_false n). apply (ok_max n Of); [exact Wf|]. unfold primary. rewrite C, IC. reflexivity.
      + apply y_arguments, ok_list; [apply SUB; lia|exact W].
    - destruct W as (-> & Wm & Wf & W). toks. apply y_remote_call, y_arguments, ok_list; [apply SUB; lia|exact W].
    - destruct W as (-> & Po & W & Mm & Sn). toks. apply y_prefix; [exact Po|].
      rewrite <- (val_other sv n Sn).
      apply ok_unary; [apply IH; lia|exact W|exact Mm|left; reflexivity|exact O].
    - destruct B as [->|B]; [|discriminate B]. apply y_primary; [|exact O].
      specialize (EB eq_refl k sv i 0 W ltac:(lia) (TSym RParen :: r) eq_refl).
      cbn [layout andb parens val meaning] in *. rewrite tokens_app, tokens_app, tokens_sy, tokens_sy, <- !app_assoc.
      cbn [app]. rewrite <- ?app_assoc. apply y_paren. cbn [app]. exact EB. }
  assert (O : forall i min ts e r, wf Pattern n -> min <= 100 ->
    yields (fun m => expr m 100) ts e r -> stops r = true ->
    yields (fun m => expr m min) (tokens (layout false false false i Pattern n) ++ TSym Equals :: ts)
      (match_onto (meaning n) e) r).
  { intros i min ts e r W Lm Y S. destruct (is_match n) eqn:Mn.
    - destruct n; try discriminate Mn. cbn [layout andb meaning size] in *. destruct W as [Wp Wn]. toks.
      rewrite match_onto_assoc. apply ok_onto; [apply IH; lia|exact Wp|exact Lm| |exact S].
      apply ok_onto; [apply IH; lia|exact Wn|lia|exact Y|exact S].
    - rewrite match_onto_plain by (apply meaning_plain, Mn). eapply y_expr.
      + apply U; [exact W|reflexivity| |reflexivity]. right. destruct n; try reflexivity. destruct W as [W _]. discriminate W.
      + rewrite val_false. eapply y_infix; [reflexivity|exact Lm|exact Y|reflexivity|].
        apply y_infix_stop, S. }
  assert (E : forall k sv i min, wf k n -> (sv = true -> is_match n = false) -> min <= 100 ->
    forall r, stops r = true ->
      yields (fun m => expr m min) (tokens (layout false sv false i k n) ++ r) (val sv n) r).
  { intros k sv i min W Sv Lm r S. destruct (is_binary n) eqn:B; [apply (EB eq_refl); assumption|].
    destruct (is_match n) eqn:Mn.
    - destruct sv; [discriminate (Sv eq_refl)|]. destruct n; try discriminate Mn.
      cbn [layout andb val meaning size] in *. destruct W as [Wp Wn]. toks.
      apply ok_onto; [apply IH; lia|exact Wp|exact Lm| |exact S]. rewrite <- (val_false n2).
      apply ok_expr; [apply IH; lia|exact Wn|discriminate|lia|exact S].
    - apply y_stop; [|exact S]. apply U; [exact W|reflexivity|right; reflexivity|apply stops_opens, S]. }
  assert (T : forall k i, wf k n -> forall r, yields tail (tokens (layout true false false i k n) ++ r) (meaning n) r).
  { intros k i W r. destruct (is_list n) eqn:IL.
    - destruct n; try discriminate IL; cbn [layout andb negb is_list meaning] in *.
      + fuel. reflexivity.
      + cbn [size] in L. destruct W as [Wh Wt]. toks.
        change (tokens comma) with [TSym Comma]. cbn [app].
        eapply y_tail_cons; [apply ok_reads; [apply IH; lia|exact Wh|destruct n2; reflexivity]|].
        apply ok_tail; [apply IH; lia|exact Wt].
    - replace (layout true false false i k n) with (sp ++ sy Bar ++ sp ++ layout false false false i k n ++ sy RBracket)
        by (destruct n; try discriminate IL; reflexivity).
      toks. apply y_tail_bar. rewrite <- val_false. apply (E k false i 0 W); [discriminate|lia|reflexivity]. }
  split; assumption.
Qed.
Lemma node_ok_ n : ok n.
Proof. apply (all_ok (S (size n))). lia. Qed.

(** ** Types *)
Definition type_stops (ts : list token) : bool :=
  match ts with TSym (Colon | LParen | Bar) :: _ => false | _ => true end.
Definition alts (t : tree) : list ty := match type_meaning t with TyUnion l => l | t => [t] end.
Definition is_union (t : ty) : bool := match t with TyUnion _ => true | _ => false end.

Lemma alts_shape : forall m t, tree_size t < m -> type_wf t ->
  alts t <> [] /\ (forall x, In x (alts t) -> is_union x = false) /\ union (alts t) = type_meaning t /\
  match t with YUnion l => alts t = flat_map alts l | _ => True end.
Proof.
  induction m as [|m IH]; intros t L W; [lia|]. unfold alts.
  destruct t; cbn [type_meaning];
    try (split; [discriminate|split; [intros x [<-|[]]; reflexivity|split; [reflexivity|exact I]]]).
  change (fun t => match type_meaning t with TyUnion l => l | t' => [t'] end) with alts.
  cbn [type_wf] in W. destruct W as [N W].
  assert (SUB : forall x, In x alternatives -> alts x <> [] /\ (forall y, In y (alts x) -> is_union y = false)).
  { intros x I. cbn [tree_size] in L. pose proof (in_sum tree_size _ _ I).
    destruct (IH x ltac:(lia) (in_each _ _ W _ I)) as (A & B & _). auto. }
  assert (NE : flat_map alts alternatives <> []).
  { destruct alternatives as [|a l]; [contradiction N; reflexivity|]. cbn [flat_map].
    destruct (SUB a (or_introl eq_refl)) as [A _]. intro E. apply app_eq_nil in E. apply A, E. }
  assert (FL : forall x, In x (flat_map alts alternatives) -> is_union x = false).
  { intros x I. apply in_flat_map in I. destruct I as (y & I & J). apply (SUB y I), J. }
  destruct (flat_map alts alternatives) as [|a [|b l]] eqn:E; [contradiction NE; reflexivity| |].
  - cbn [union]. pose proof (FL a (or_introl eq_refl)) as Na.
    destruct a; try discriminate Na; (split; [discriminate|split; [exact FL|split; reflexivity]]).
  - cbn [union]. split; [discriminate|split; [exact FL|split; reflexivity]].
Qed.

Lemma y_top_type ts a r : yields alternatives ts a r -> yields top_type ts (union a) r.
Proof. intro A. fuel. cbn [top_type]. use A. reflexivity. Qed.
Lemma y_alternative ts t r : yields type_ ts t r -> type_stops r = true -> yields alternatives ts [t] r.
Proof.
  intros A S. fuel. cbn [alternatives]. use A.
  destruct r as [|[s| | | | | | | |] r]; try reflexivity. destruct s; try reflexivity; discriminate S.
Qed.
Lemma y_alternatives ts t ts' a r : yields type_ ts t (TSym Bar :: ts') -> yields alternatives ts' a r ->
  yields alternatives ts (t :: a) r.
Proof. intros A B. fuel. cbn [alternatives]. use A. use B. reflexivity. Qed.

Definition reads_type (x : list token) (t : ty) : Prop :=
  forall r, type_stops r = true -> yields top_type (x ++ r) t r.
Lemma y_types xs ts : Forall2 reads_type xs ts -> xs <> [] -> forall r, type_stops r = true -> no_comma r = true ->
  yields types (commas xs ++ r) ts r.
Proof.
  unfold commas. induction 1 as [|x t xs ts X F IH]; intros N r S C; [contradiction N; reflexivity|].
  cbn [separated app]. rewrite <- app_assoc, separated_false.
  destruct xs as [|x' xs].
  - inversion F; subst. specialize (X r S). fuel. cbn [types]. use X.
    destruct r as [|[s| | | | | | | |] r]; try reflexivity. destruct s; try reflexivity; discriminate C.
  - specialize (IH ltac:(discriminate) r S C).
    specialize (X ([TSym Comma] ++ separated [TSym Comma] true (x' :: xs) ++ r) eq_refl).
    set (rest := separated [TSym Comma] true (x' :: xs) ++ r) in *.
    fuel. cbn [types]. use X. cbn [app]. use IH. reflexivity.
Qed.
Lemma types_closing n s ts : closing s = true -> types n (TSym s :: ts) = None.
Proof.
  intro C. destruct n as [|[|[|[|n]]]]; try reflexivity. destruct s; try discriminate C; reflexivity.
Qed.
Lemma y_type_arguments xs ts r : Forall2 reads_type xs ts ->
  yields type_arguments (commas xs ++ TSym RParen :: r) ts r.
Proof.
  intro F. destruct xs as [|x xs].
  - inversion F; subst. fuel. reflexivity.
  - pose proof (y_types _ _ F ltac:(discriminate) (TSym RParen :: r) eq_refl eq_refl) as Y.
    set (l := commas (x :: xs) ++ TSym RParen :: r) in *. clearbody l. fuel. cbn [type_arguments].
    use Y. destruct l as [|[s| | | | | | | |] l]; try reflexivity.
    destruct s; try reflexivity. specialize (Y n ltac:(lia)). rewrite types_closing in Y by reflexivity. discriminate Y.
Qed.
Lemma y_type_tuple xs ts r : Forall2 reads_type xs ts ->
  yields type_ (TSym LBrace :: commas xs ++ TSym RBrace :: r) (TyTuple ts) r.
Proof.
  intro F. destruct xs as [|x xs].
  - inversion F; subst. fuel. reflexivity.
  - pose proof (y_types _ _ F ltac:(discriminate) (TSym RBrace :: r) eq_refl eq_refl) as Y.
    set (l := commas (x :: xs) ++ TSym RBrace :: r) in *. clearbody l. fuel. cbn [type_].
    use Y. destruct l as [|[s| | | | | | | |] l]; try reflexivity.
    destruct s; try reflexivity. specialize (Y n ltac:(lia)). rewrite types_closing in Y by reflexivity. discriminate Y.
Qed.

Record type_okay (t : tree) : Prop := TypeOk {
  type_stop : forall r, type_stops r = true -> yields alternatives (tokens (type_layout t) ++ r) (alts t) r;
  type_more : forall ts b r, yields alternatives ts b r ->
    yields alternatives (tokens (type_layout t) ++ TSym Bar :: ts) (alts t ++ b) r }.
Lemma okay_reads t : type_okay t -> type_wf t -> reads_type (tokens (type_layout t)) (type_meaning t).
Proof.
  intros O W r R. destruct (alts_shape (S (tree_size t)) t ltac:(lia) W) as (_ & _ & <- & _).
  apply y_top_type, O, R.
Qed.
Lemma okay_list l : (forall t, In t l -> type_okay t) -> each type_wf l ->
  Forall2 reads_type (map tokens (map type_layout l)) (map type_meaning l).
Proof.
  intros O W. rewrite map_map. apply forall2_map. intros t I.
  apply okay_reads; [apply O, I|apply (in_each _ _ W), I].
Qed.
Lemma single_okay t : alts t = [type_meaning t] ->
  (forall r, opens r = false -> yields type_ (tokens (type_layout t) ++ r) (type_meaning t) r) -> type_okay t.
Proof.
  intros A H. split.
  - intros r S. rewrite A. apply y_alternative; [|exact S]. apply H.
    destruct r as [|[s| | | | | | | |] r]; try reflexivity. destruct s; try reflexivity; discriminate S.
  - intros ts b r Y. rewrite A. eapply y_alternatives; [apply H; reflexivity|exact Y].
Qed.
Theorem all_types : forall m t, tree_size t < m -> type_wf t -> type_okay t.
Proof.
  induction m as [|m IH]; intros t L W; [lia|].
  assert (SUB : forall l, list_sum (map tree_size l) < m -> each type_wf l -> forall x, In x l -> type_okay x).
  { intros l S E x I. apply IH; [pose proof (in_sum tree_size l x I); lia|apply (in_each _ _ E), I]. }
  destruct t; try (apply single_okay; [reflexivity|intros r O]); cbn [type_layout type_meaning type_wf tree_size] in *.
  - fuel. reflexivity.
  - fuel. cbn [tokens]. destruct r as [|[s| | | | | | | |] r]; try reflexivity.
    destruct s; try reflexivity; discriminate O.
  - destruct W as [A W]. toks.
    pose proof (y_type_arguments _ _ r (okay_list _ (SUB arguments ltac:(lia) W) W)) as Y. fuel. cbn [type_]. use Y. reflexivity.
  - destruct W as (M & A & W). toks.
    pose proof (y_type_arguments _ _ r (okay_list _ (SUB arguments ltac:(lia) W) W)) as Y. fuel. cbn [type_]. use Y. reflexivity.
  - toks. apply y_type_tuple, okay_list; [apply SUB; [lia|exact W]|exact W].
  - destruct W as [Wl Wt]. toks.
    pose proof (y_type_arguments _ _ (TSym Arrow :: tokens (type_layout t) ++ TSym RParen :: r)
      (okay_list _ (SUB arguments ltac:(lia) Wl) Wl)) as Y.
    pose proof (okay_reads t (IH t ltac:(lia) Wt) Wt (TSym RParen :: r) eq_refl) as Z.
    fuel. cbn [type_]. use Y. use Z. reflexivity.
  - destruct W as [N W].
    destruct (alts_shape (S (tree_size (YUnion alternatives))) (YUnion alternatives) ltac:(lia) (conj N W)) as (_ & _ & _ & A).
    specialize (SUB alternatives ltac:(lia) W).
    assert (T : tokens (items (sp ++ sy Bar ++ sp) [] true (map type_layout alternatives)) =
      separated [TSym Bar] true (map tokens (map type_layout alternatives))) by (apply tokens_items; reflexivity).
    split; cbn [type_layout]; rewrite A, T; clear A T L W IH;
      (induction alternatives as [|t l IHl]; [contradiction N; reflexivity|]);
      pose proof (SUB t (or_introl eq_refl)) as O;
      (assert (SUB' : forall x, In x l -> type_okay x) by (intros; apply SUB; right; assumption));
      cbn [map separated app flat_map].
    + intros r R. rewrite <- app_assoc, separated_false. destruct l as [|t' l].
      * cbn [map flat_map]. rewrite app_nil_r. apply O, R.
      * cbn [map]. apply (type_more t O), IHl; [discriminate|exact SUB'|exact R].
    + intros ts b r Y. rewrite <- app_assoc, separated_false. destruct l as [|t' l].
      * cbn [map flat_map]. rewrite app_nil_r. apply (type_more t O), Y.
      * cbn [map]. rewrite <- app_assoc. apply (type_more t O), IHl; [discriminate|exact SUB'|exact Y].
Qed.
Lemma tree_reads t : type_wf t -> reads_type (tokens (type_layout t)) (type_meaning t).
Proof. intro W. apply okay_reads; [apply (all_types (S (tree_size t))); [lia|exact W]|exact W]. Qed.
Lemma trees_read l : each type_wf l -> Forall2 reads_type (map tokens (map type_layout l)) (map type_meaning l).
Proof.
  intro W. apply okay_list; [|exact W]. intros t I.
  apply (all_types (S (tree_size t))); [lia|apply (in_each _ _ W), I].
Qed.
Lemma nodes_read k l i : each (wf k) l ->
  Forall2 reads_as (map tokens (map (layout false false false i k) l)) (map meaning l).
Proof. intro W. apply ok_list; [intros; apply node_ok_|exact W]. Qed.

(** ** Forms *)
Definition no_attribute : list string := ["spec"; "type"; "opaque"; "record"]%string.
Lemma y_attribute name xs es r : existsb (fun w => text_eqb name (str w)) no_attribute = false ->
  Forall2 reads_as xs es ->
  yields form_ (TSym Minus :: TAtom name :: TSym LParen :: commas xs ++ TSym RParen :: r) (FAttribute name es) r.
Proof.
  intros N F. pose proof (y_arguments _ _ r F) as Y. fuel. cbn [form_].
  unfold no_attribute in N. cbn [existsb] in N.
  repeat (apply orb_false_elim in N; destruct N as [?N N]).
  rewrite N0, N1, N2, N3. cbn [orb]. use Y. reflexivity.
Qed.
Lemma y_one name x e r : existsb (fun w => text_eqb name (str w)) no_attribute = false -> reads_as x e ->
  yields form_ (TSym Minus :: TAtom name :: TSym LParen :: x ++ TSym RParen :: r) (FAttribute name [e]) r.
Proof.
  intros N X. pose proof (y_attribute name [x] [e] r N ltac:(constructor; [exact X|constructor])) as Y.
  unfold commas in Y. cbn [separated app] in Y. rewrite app_nil_r in Y. exact Y.
Qed.
Lemma y_token t e : (forall n r, max (S n) (t :: r) = Some (e, r)) -> reads_as [t] e.
Proof.
  intros H r S. apply (y_stop 0); [|exact S]. apply y_primary; [|apply stops_opens, S].
  fuel. apply H.
Qed.
Lemma doc_reads d : reads_as (tokens (lex_doc d)) (doc_meaning d).
Proof. destruct d; apply y_token; reflexivity. Qed.

(** A list of anything without its brackets. *)
Lemma y_elements xs es : Forall2 reads_as xs es -> xs <> [] -> forall r,
  yields max (TSym LBracket :: commas xs ++ TSym RBracket :: r) (fold_right ECons ENil es) r.
Proof.
  intros F N r. destruct F as [|x e xs es X F]; [contradiction N; reflexivity|].
  unfold commas. cbn [separated app fold_right]. rewrite <- app_assoc. clear N.
  eapply y_list; [apply X; rewrite separated_false; destruct xs; reflexivity|].
  clear x e X. induction F as [|x e xs es X F IH].
  - cbn [separated app fold_right]. fuel. reflexivity.
  - cbn [separated app fold_right]. rewrite <- app_assoc. eapply y_tail_cons; [|exact IH].
    apply X. rewrite separated_false. destruct xs; reflexivity.
Qed.
Lemma list_reads xs es : Forall2 reads_as xs es -> xs <> [] ->
  reads_as (TSym LBracket :: commas xs ++ [TSym RBracket]) (fold_right ECons ENil es).
Proof.
  intros F N r S. apply (y_stop 0); [|exact S]. apply y_primary; [|apply stops_opens, S].
  cbn [app]. rewrite <- app_assoc. apply y_elements; assumption.
Qed.
Lemma exported_reads l : l <> [] -> reads_as (tokens (lex_exported l)) (exported_meaning l).
Proof.
  intro N. unfold lex_exported. toks.
  replace (exported_meaning l) with (fold_right ECons ENil (map (fun '(f, a) => EOp Slash (EAtom f) (EInt a)) l)).
  2:{ unfold exported_meaning. clear N. induction l as [|[f a] l IH]; [reflexivity|]. cbn [map fold_right]. rewrite IH. reflexivity. }
  apply list_reads; [|apply map_nonempty, map_nonempty, N].
  rewrite map_map. apply forall2_map. intros [f a] _ r S. toks. eapply y_expr.
  - apply y_primary; [apply y_atom|reflexivity].
  - eapply y_infix; [reflexivity|lia| |apply stops_chained, S|apply y_infix_stop, S].
    apply y_stop; [|exact S]. apply y_primary; [|apply stops_opens, S]. fuel. reflexivity.
Qed.
Lemma compile_reads l : reads_as (TSym LBracket :: commas (map (fun a => [TAtom a]) l) ++ [TSym RBracket])
  (fold_right (fun a e => ECons (EAtom a) e) ENil l).
Proof.
  destruct l as [|a l].
  - intros r S. apply (y_stop 0); [|exact S]. apply y_primary; [|apply stops_opens, S]. fuel. reflexivity.
  - replace (fold_right (fun a e => ECons (EAtom a) e) ENil (a :: l)) with (fold_right ECons ENil (map EAtom (a :: l))).
    2:{ generalize (a :: l). intro l0. induction l0; [reflexivity|]. cbn [map fold_right]. rewrite IHl0. reflexivity. }
    apply list_reads; [|discriminate]. apply forall2_map. intros x _. apply y_token. reflexivity.
Qed.
Lemma y_record_fields l : each (fun '(f, t) => atom_name f = true /\ type_wf t) l -> forall r,
  yields record_fields (commas (map (fun '(f, t) => TAtom f :: TSym ColonColon :: tokens (type_layout t)) l) ++ TSym RBrace :: r)
    (map (fun '(f, t) => (f, type_meaning t)) l) r.
Proof.
  unfold commas. induction l as [|[f t] l IH]; intros W r; [fuel; reflexivity|].
  destruct W as [[_ Wt] W]. specialize (IH W r). cbn [map separated app].
  rewrite <- app_assoc, separated_false.
  destruct l as [|[g u] l].
  - cbn [map]. pose proof (tree_reads t Wt (TSym RBrace :: r) eq_refl) as T. fuel. cbn [record_fields]. use T. reflexivity.
  - cbn [map app] in *.
    match goal with |- context [?a ++ TSym Comma :: ?b] =>
      pose proof (tree_reads t Wt (TSym Comma :: b) eq_refl) as T end.
    cbn [separated app] in *. rewrite <- ?app_assoc in *. fuel. cbn [record_fields]. use T. use IH. reflexivity.
Qed.

Lemma form_record n f ts :
  form_ n (TSym Minus :: TAtom (str "record") :: TSym LParen :: TAtom f :: TSym Comma :: TSym LBrace :: ts) =
  match record_fields n ts with Some (l, TSym RParen :: ts) => Some (FRecord f l, ts) | _ => None end.
Proof. reflexivity. Qed.
Lemma form_spec n f ts :
  form_ n (TSym Minus :: TAtom (str "spec") :: TAtom f :: TSym LParen :: ts) =
  match type_arguments n ts with
  | Some (l, TSym Arrow :: ts) =>
      match top_type n ts with Some (t, ts) => Some (FSpec f l t, ts) | None => None end
  | _ => None
  end.
Proof. reflexivity. Qed.
Lemma form_type (opaque : bool) n f ts :
  form_ n (TSym Minus :: TAtom (str (if opaque then "opaque" else "type")%string) :: TAtom f :: TSym LParen :: ts) =
  match arguments n ts with
  | Some (l, TSym ColonColon :: ts) =>
      match top_type n ts with Some (t, ts) => Some (FType opaque f l t, ts) | None => None end
  | _ => None
  end.
Proof. destruct opaque; reflexivity. Qed.
Lemma form_function n f ts :
  form_ n (TAtom f :: TSym LParen :: ts) =
  match arguments n ts with
  | Some (l, TSym Arrow :: ts) =>
      match exprs n ts with Some (b, ts) => Some (FFunction f l b, ts) | None => None end
  | _ => None
  end.
Proof. reflexivity. Qed.

Lemma y_top f : top_wf f -> written f = true ->
  exists ts form, tokens (top_layout f) = ts ++ [TDot] /\ top_meaning f = [form] /\
    forall r, yields form_ (ts ++ TDot :: r) form (TDot :: r).
Proof.
  intros W Wr.
  assert (D : forall l, tokens (l ++ dot ++ nl 0) = tokens l ++ [TDot]) by (intro; toks; reflexivity).
  destruct f; cbn [top_wf top_layout top_meaning] in *.
  - destruct exported as [|p l]; [discriminate Wr|]. unfold attribute. toks.
    eexists (_ :: _ :: _ :: _ ++ [_]), _. split; [cbn [app]; rewrite <- app_assoc; reflexivity|]. split; [reflexivity|].
    intro r. cbn [app]. rewrite <- app_assoc. apply y_one; [reflexivity|]. apply exported_reads. discriminate.
  - destruct exported as [|p l]; [discriminate Wr|]. unfold attribute. toks.
    eexists (_ :: _ :: _ :: _ ++ [_]), _. split; [cbn [app]; rewrite <- app_assoc; reflexivity|]. split; [reflexivity|].
    intro r. cbn [app]. rewrite <- app_assoc. apply y_one; [reflexivity|]. apply exported_reads. discriminate.
  - unfold attribute. toks.
    eexists (_ :: _ :: _ :: _ ++ [_]), _. split; [cbn [app]; rewrite <- app_assoc; reflexivity|]. split; [reflexivity|].
    intro r. cbn [app]. rewrite <- app_assoc. apply y_one; [reflexivity|apply doc_reads].
  - unfold attribute. toks.
    eexists (_ :: _ :: _ :: _ ++ [_]), _. split; [cbn [app]; rewrite <- app_assoc; reflexivity|]. split; [reflexivity|].
    intro r. cbn [app]. rewrite <- app_assoc. apply y_one; [reflexivity|apply doc_reads].
  - unfold attribute. toks. rewrite map_map.
    exists (TSym Minus :: TAtom (str "compile") :: TSym LParen ::
      (TSym LBracket :: commas (map (fun a => [TAtom a]) arguments) ++ [TSym RBracket]) ++ [TSym RParen]).
    eexists. split; [|split; [reflexivity|]].
    + change (fun x : text => tokens [(Some (TAtom x), x)]) with (fun x : text => [TAtom x]).
      cbn [app]. rewrite <- !app_assoc. reflexivity.
    + intro r. cbn [app]. rewrite <- !app_assoc. cbn [app].
      pose proof (y_one (str "compile") _ _ (TDot :: r) eq_refl (compile_reads arguments)) as Y.
      cbn [app] in Y. rewrite <- !app_assoc in Y. exact Y.
  - unfold attribute. toks.
    eexists (_ :: _ :: _ :: commas [[_]; [_]] ++ [_]), _. split; [reflexivity|]. split; [reflexivity|].
    intro r. cbn [app]. rewrite <- app_assoc. apply y_attribute; [reflexivity|].
    repeat constructor; apply y_token; reflexivity.
  - destruct W as [A W]. unfold attribute. toks. change (tokens comma) with [TSym Comma]. cbn [app]. rewrite map_map. cbv beta.
    eexists (_ :: _ :: _ :: _ :: _ :: _ :: _ ++ [_; _]), _. split; [cbn [app]; rewrite <- app_assoc; reflexivity|]. split; [reflexivity|].
    intro r. cbn [app]. rewrite <- app_assoc. cbn [app].
    pose proof (y_record_fields fields W (TSym RParen :: TDot :: r)) as Y. fuel. rewrite form_record.
    match goal with |- context [commas (map ?g fields)] =>
      replace (map g fields) with (map (fun '(f, t) => TAtom f :: TSym ColonColon :: tokens (type_layout t)) fields)
        by (apply map_ext; intros [f t]; toks; reflexivity) end.
    use Y. reflexivity.
  - destruct W as (A & Wl & Wt). toks.
    exists (TSym Minus :: TAtom (str "spec") :: TAtom name :: TSym LParen ::
      commas (map tokens (map type_layout arguments)) ++ TSym RParen :: TSym Arrow :: tokens (type_layout return_)).
    eexists. split; [|split; [reflexivity|]].
    { cbn [app]. rewrite <- !app_assoc. cbn [app]. rewrite <- ?app_assoc. reflexivity. }
    intro r. cbn [app]. rewrite <- !app_assoc. cbn [app]. rewrite <- ?app_assoc. cbn [app].
    pose proof (y_type_arguments _ _ (TSym Arrow :: tokens (type_layout return_) ++ TDot :: r) (trees_read _ Wl)) as Y.
    pose proof (tree_reads _ Wt (TDot :: r) eq_refl) as Z.
    fuel. rewrite form_spec. use Y. use Z. reflexivity.
  - destruct W as (A & Wl & Wt). toks.
    exists (TSym Minus :: TAtom (str (if opaque then "opaque" else "type")%string) :: TAtom name :: TSym LParen ::
      commas (map tokens (map var variables)) ++ TSym RParen :: TSym ColonColon :: tokens (type_layout t)).
    eexists. split; [|split; [reflexivity|]].
    { cbn [app]. rewrite <- !app_assoc. cbn [app]. rewrite <- ?app_assoc. reflexivity. }
    intro r. cbn [app]. rewrite <- !app_assoc. cbn [app]. rewrite <- ?app_assoc. cbn [app].
    pose proof (y_arguments _ _ (TSym ColonColon :: tokens (type_layout t) ++ TDot :: r) (vars_read variables)) as Y.
    pose proof (tree_reads _ Wt (TDot :: r) eq_refl) as Z.
    fuel. rewrite form_type. use Y. use Z. reflexivity.
  - destruct W as (A & Wl & N & W). toks.
    exists (TAtom name :: TSym LParen :: commas (map tokens (map var arguments)) ++ TSym RParen :: TSym Arrow ::
      commas (map tokens (map (layout false false false 4 Expression) body))).
    eexists. split; [|split; [reflexivity|]].
    { cbn [app]. rewrite <- !app_assoc. cbn [app]. rewrite <- ?app_assoc. reflexivity. }
    intro r. cbn [app]. rewrite <- !app_assoc. cbn [app]. rewrite <- ?app_assoc. cbn [app].
    pose proof (y_exprs _ _ (nodes_read _ _ 4 W) (map_nonempty _ _ (map_nonempty _ _ N)) (TDot :: r) eq_refl eq_refl) as Z.
    match type of Z with yields _ (?b ++ _) _ _ =>
      pose proof (y_arguments _ _ (TSym Arrow :: b ++ TDot :: r) (vars_read arguments)) as Y end.
    fuel. rewrite form_function. use Y. use Z. reflexivity.
Qed.

(** ** Modules *)
Definition reads_forms (ts : list token) (m : list form) : Prop :=
  exists n0, forall n, n0 <= n -> forms n ts = Some m.
Lemma y_forms ts f rest m : yields form_ ts f (TDot :: rest) -> reads_forms rest m ->
  reads_forms ts (f :: m).
Proof.
  intros [a A] [b B]. exists (S (a + b)). intros [|n] L; [lia|].
  assert (N : ts <> []) by (intros ->; specialize (A a (le_n a)); discriminate A).
  destruct ts as [|t ts]; [contradiction N; reflexivity|]. cbn [forms]. use A. use B. reflexivity.
Qed.
Lemma tops_read l : each top_wf l -> reads_forms (tokens (flat_map top_layout l)) (flat_map top_meaning l).
Proof.
  induction l as [|f l IH]; intro W; [exists 0; intros [|n] _; reflexivity|].
  destruct W as [Wf W]. cbn [flat_map]. rewrite tokens_app.
  destruct (written f) eqn:Wr.
  - destruct (y_top f Wf Wr) as (ts & form & -> & -> & Y). rewrite <- app_assoc. cbn [app].
    eapply y_forms; [apply Y|apply IH, W].
  - rewrite (unwritten f Wr). replace (top_meaning f) with (@nil form).
    + apply IH, W.
    + destruct f; try discriminate Wr; destruct exported; try discriminate Wr; reflexivity.
Qed.
Theorem module_reads name l : match name with Some a => atom_name a = true | None => True end ->
  module_wf l ->
  exists t, build name (flat_map top_calls l) = Some t /\ reads t (match name with Some a => [FAttribute (str "module") [EAtom a]] | None => [] end ++
             flat_map top_meaning l).
Proof.
  intros N W. eexists. split; [apply builds, W|].
  eexists. split; [apply module_scan; assumption|].
  rewrite tokens_app. pose proof (tops_read l (proj1 W)) as T.
  destruct name as [a|]; [|exact T]. unfold header, attribute. toks.
  eapply y_forms; [|exact T]. 
  apply (y_one (str "module") [TAtom a]); [reflexivity|]. apply y_token. reflexivity.
Qed.

(** Proofs about adding a name to an import. *)
From Coq Require Import String Arith NArith List Bool Lia.
From Coq Require Import ZifyBool ZifyNat ZifyN.
From Verif Require Import Text TextProofs ImportEdit ImportEditSpec.
Import ListNotations.
Local Open Scope list_scope.
Local Open Scope nat_scope.

(** ** Tokens *)
Lemma no_comment s : has_comment s = false -> without_comments false s = s.
Proof.
  induction s as [|c s IH]; intro H; [reflexivity|]. cbn in *. apply orb_false_iff in H as (-> & H). rewrite IH by exact H. reflexivity.
Qed.
Lemma has_comment_app a b : hd_error b <> Some 47%N -> has_comment (a ++ b) = has_comment a || has_comment b.
Proof.
  intro N. induction a as [|c a IH]; [reflexivity|]. cbn [app has_comment]. rewrite IH, orb_assoc. f_equal. f_equal. f_equal.
  destruct a as [|d a]; [|reflexivity]. destruct b as [|d b]; [reflexivity|]. cbn. apply N.eqb_neq. intros ->. apply N. reflexivity.
Qed.
Lemma words_app a : forall w c b, word_char c = false -> words_from w (a ++ c :: b) = words_from w a ++ words_from [] (c :: b).
Proof.
  induction a as [|d a IH]; intros w c b H; cbn.
  - rewrite H. reflexivity.
  - destruct (word_char d); [apply IH, H|]. rewrite IH by exact H. cbn. rewrite <- !app_assoc. reflexivity.
Qed.
Lemma words_split s : forall w A t C, words_from w s = A ++ Sign t :: C ->
  exists a c, s = a ++ t :: c /\ words_from w a = A /\ words_from [] c = C.
Proof.
  induction s as [|c s IH]; intros w A t C E; cbn in E.
  - exfalso. unfold ended in E. destruct w; [destruct A; discriminate E|]. destruct A as [|x [|y A]]; discriminate E.
  - destruct (word_char c) eqn:W.
    + destruct (IH _ _ _ _ E) as (a & b & -> & X & Y). exists (c :: a), b. split; [reflexivity|]. split; [cbn; rewrite W; exact X|exact Y].
    + assert (exists A', A = ended w ++ A' /\ (if space c then [] else [Sign c]) ++ words_from [] s = A' ++ Sign t :: C) as (A' & -> & E').
      { unfold ended in *. destruct w as [|x w]; [exists A; split; [reflexivity|exact E]|]. destruct A as [|y A]; [discriminate E|].
        exists A. cbn in E. injection E as -> E. split; [reflexivity|exact E]. }
      destruct (space c) eqn:S.
      * destruct (IH _ _ _ _ E') as (a & b & -> & X & Y). exists (c :: a), b. split; [reflexivity|]. split; [|exact Y].
        cbn. rewrite W, S. cbn. rewrite X. reflexivity.
      * destruct A' as [|x A'].
        -- cbn in E'. injection E' as -> E'. exists [], s. split; [reflexivity|]. split; [rewrite app_nil_r; reflexivity|exact E'].
        -- cbn in E'. injection E' as <- E'. destruct (IH _ _ _ _ E') as (a & b & -> & X & Y). exists (c :: a), b. split; [reflexivity|].
           split; [|exact Y]. cbn. rewrite W, S. cbn. rewrite X. reflexivity.
Qed.
Lemma sign_in s c : word_char c = false -> space c = false -> forall w, In c s -> In (Sign c) (words_from w s).
Proof.
  intros W S. induction s as [|d s IH]; intros w I; [destruct I|]. destruct I as [->|I]; cbn.
  - rewrite W, S. apply in_app_iff. right. left. reflexivity.
  - destruct (word_char d); [apply IH, I|]. rewrite !in_app_iff. right. right. apply IH, I.
Qed.
Lemma space_not_word c : space c = true -> word_char c = false.
Proof. unfold space. intro H. apply orb_prop in H as [H|H]; [apply orb_prop in H as [H|H]; [apply orb_prop in H as [H|H]|]|]; apply N.eqb_eq in H as ->; reflexivity. Qed.
Lemma whitespace_cases c : is_whitespace c = true -> In c [32; 9; 10; 11; 12; 13]%N.
Proof.
  unfold is_whitespace. intro H. apply orb_prop in H as [H|H]; [apply N.eqb_eq in H as ->; left; reflexivity|].
  apply andb_prop in H as (A & B). apply N.leb_le in A, B.
  assert (c = 9 \/ c = 10 \/ c = 11 \/ c = 12 \/ c = 13)%N as [-> | [-> | [-> | [-> | ->]]]] by lia; cbn; auto 8.
Qed.
Lemma whitespace_not_word c : is_whitespace c = true -> word_char c = false.
Proof. intro H. apply whitespace_cases in H as [<-|[<-|[<-|[<-|[<-|[<-|[]]]]]]]; reflexivity. Qed.
Lemma only_spaces s : Forall (fun c => space c = true) s -> words_from [] s = [].
Proof.
  induction 1 as [|c s S F IH]; [reflexivity|]. cbn. rewrite S, IH, (space_not_word c S). reflexivity.
Qed.
Lemma words_spaces a ws : Forall (fun c => space c = true) ws -> words_from [] (a ++ ws) = words_from [] a.
Proof.
  intro F. destruct ws as [|c ws]; [rewrite app_nil_r; reflexivity|]. inversion F as [|? ? S G]; subst.
  rewrite words_app by apply space_not_word, S. rewrite (only_spaces (c :: ws) F). apply app_nil_r.
Qed.
Lemma no_words s : Forall (fun c => word_char c = false) s -> forall u, ~ In (Word u) (words_from [] s).
Proof.
  induction 1 as [|c s W F IH]; intros u I; cbn in I; [exact I|]. rewrite W in I. cbn in I. apply in_app_iff in I as [I|I]; [|exact (IH u I)].
  destruct (space c); [exact I|]. destruct I as [I|[]]. discriminate I.
Qed.
Lemma last_word a x : word_char x = true -> forall w, exists T u, words_from w (a ++ [x]) = T ++ [Word u].
Proof.
  intro W. induction a as [|c a IH]; intro w; cbn.
  - rewrite W. cbn. exists [], (w ++ [x]). destruct w; reflexivity.
  - destruct (word_char c); [apply IH|]. destruct (IH []) as (T & u & ->). exists (ended w ++ (if space c then [] else [Sign c]) ++ T), u. rewrite <- !app_assoc. reflexivity.
Qed.

(** ** Searches *)
Lemma rfind_last f a c b : f c = true -> Forall (fun d => f d = false) b -> rfind f (a ++ c :: b) = Some (length a).
Proof.
  intros C F. assert (rfind f b = None) as E by (induction F as [|d b D F IH]; [reflexivity|]; cbn; rewrite IH, D; reflexivity).
  induction a as [|d a IH]; cbn; [rewrite E, C; reflexivity|]. rewrite IH. reflexivity.
Qed.
Lemma rfind_cases (f : N -> bool) s : (exists a c b, s = a ++ c :: b /\ f c = true /\ Forall (fun d => f d = false) b) \/ Forall (fun d => f d = false) s.
Proof.
  induction s as [|c s [(a & d & b & -> & D & F)|F]]; [right; constructor|left; exists (c :: a), d, b; auto|].
  destruct (f c) eqn:C; [left; exists [], c, s; auto|right; constructor; assumption].
Qed.
Lemma find_char_first c a b : ~ In c a -> find_char c (a ++ c :: b) = Some (length a).
Proof.
  induction a as [|d a IH]; intro N; cbn; [rewrite N.eqb_refl; reflexivity|].
  destruct (N.eqb_spec d c) as [->|_]; [exfalso; apply N; left; reflexivity|]. rewrite IH by (intro I; apply N; right; exact I). reflexivity.
Qed.
Lemma starts_with_app p s : starts_with p s = true -> exists r, s = p ++ r.
Proof.
  revert s. induction p as [|c p IH]; intros s H; [exists s; reflexivity|]. destruct s as [|d s]; [discriminate H|]. cbn in H.
  apply andb_prop in H as (E & H). apply N.eqb_eq in E as ->. destruct (IH s H) as (r & ->). exists r. reflexivity.
Qed.
Lemma starts_with_prefix p r : starts_with p (p ++ r) = true.
Proof. induction p; cbn; [reflexivity|]. rewrite N.eqb_refl. assumption. Qed.
Lemma find_text_found p s : has s p -> exists a b, s = a ++ p ++ b /\ find_text p s = Some (length a).
Proof.
  intros (a & b & ->). induction a as [|c a (a' & b' & E & F)].
  - exists [], b. split; [reflexivity|]. cbn [app]. pose proof (starts_with_prefix p b) as S. destruct (p ++ b); cbn in *; rewrite S; reflexivity.
  - cbn [app find_text]. destruct (starts_with p (c :: a ++ p ++ b)) eqn:S.
    + destruct (starts_with_app _ _ S) as (r & R). exists [], r. split; [exact R|reflexivity].
    + rewrite F. exists (c :: a'), b'. split; [cbn; rewrite E; reflexivity|reflexivity].
Qed.
Lemma last_char start x ws a : is_whitespace x = false -> Forall (fun c => is_whitespace c = true) ws -> forall rest,
  last_char_before start (a ++ x :: ws ++ rest) (length a + 1 + length ws) = if N.eqb x 123 then None else Some (start + length a, x).
Proof.
  intros X. induction ws as [|c ws IH] using rev_ind; intros F rest.
  - cbn [length app]. replace (length a + 1 + 0) with (S (length a)) by lia. cbn [last_char_before].
    rewrite nth_error_app2, Nat.sub_diag by lia. cbn [nth_error]. rewrite X. reflexivity.
  - apply Forall_app in F as (F & C). inversion C as [|? ? C' _]; subst. rewrite app_length. cbn [length].
    replace (length a + 1 + (length ws + 1)) with (S (length a + 1 + length ws)) by lia. cbn [last_char_before].
    rewrite <- app_assoc. cbn [app].
    assert (nth_error (a ++ x :: ws ++ c :: rest) (length a + 1 + length ws) = Some c) as ->.
    { change (a ++ x :: ws ++ c :: rest) with (a ++ (x :: ws) ++ c :: rest). rewrite app_assoc, nth_error_app2 by (rewrite app_length; cbn; lia).
      rewrite app_length. cbn [length]. replace (_ - _) with 0 by lia. reflexivity. }
    rewrite C'. apply IH, F.
Qed.

(** ** Insertion *)
Lemma inserted (before u v after new : text) :
  firstn (length before + length u) (before ++ (u ++ v) ++ after) ++ new ++ skipn (length before + length u) (before ++ (u ++ v) ++ after)
  = before ++ (u ++ new ++ v) ++ after.
Proof.
  rewrite <- app_length. replace (before ++ (u ++ v) ++ after) with ((before ++ u) ++ v ++ after) by (rewrite <- !app_assoc; reflexivity).
  rewrite firstn_app, skipn_app, Nat.sub_diag, firstn_all, skipn_all. cbn. rewrite <- !app_assoc. reflexivity.
Qed.
Lemma slice_import before s after : slice (before ++ s ++ after) (length before) (length before + length s) = Some s.
Proof.
  unfold slice. rewrite !app_length. replace (_ && _) with true by lia. f_equal.
  rewrite skipn_app, skipn_all, Nat.sub_diag. cbn. replace (_ - _) with (length s) by lia.
  rewrite firstn_app, Nat.sub_diag, firstn_all. cbn. apply app_nil_r.
Qed.

(** ** Imports *)
Lemma segments_signs m c : In (Sign c) (segments m) -> c = 47%N.
Proof.
  induction m as [|s m IH]; [intros []|]. destruct m as [|t m]; cbn [segments].
  - intros [E|[]]; discriminate E.
  - intros [E|[E|I]]; [discriminate E|congruence|exact (IH I)].
Qed.
Lemma segments_words m u : In (Word u) (segments m) -> In u m.
Proof.
  induction m as [|s m IH]; [intros []|]. destruct m as [|t m]; cbn [segments].
  - intros [E|[]]. left. congruence.
  - intros [E|[E|I]]; [left; congruence|discriminate E|right; exact (IH I)].
Qed.
Lemma word_signs i c : ~ In (Sign c) (map Word i).
Proof. intro I. apply in_map_iff in I as (? & E & _). discriminate E. Qed.
Lemma listed_signs l c : In (Sign c) (listed l) -> c = 44%N.
Proof.
  induction l as [|i l IH]; [intros []|]. destruct l as [|j l]; cbn [listed].
  - intro I. destruct (word_signs _ _ I).
  - intro I. apply in_app_iff in I as [I|[E|I]]; [destruct (word_signs _ _ I)|congruence|exact (IH I)].
Qed.
Lemma listed_snoc l item : l <> [] -> listed (l ++ [item]) = listed l ++ Sign 44 :: map Word item.
Proof.
  induction l as [|i l IH]; intro N; [congruence|]. destruct l as [|j l]; [reflexivity|].
  change (listed ((i :: j :: l) ++ [item])) with (map Word i ++ Sign 44 :: listed ((j :: l) ++ [item])). rewrite IH by discriminate.
  change (listed (i :: j :: l)) with (map Word i ++ Sign 44 :: listed (j :: l)). rewrite <- app_assoc. reflexivity.
Qed.
Lemma listed_last l : l <> [] -> Forall (fun i => i <> []) l -> exists T u, listed l = T ++ [Word u].
Proof.
  intros N F. induction F as [|i l I F IH]; [congruence|]. destruct l as [|j l].
  - destruct (exists_last I) as (r & u & ->). exists (map Word r), u. cbn. rewrite map_app. reflexivity.
  - destruct IH as (T & u & E); [discriminate|]. exists (map Word i ++ Sign 44 :: T), u.
    change (listed (i :: j :: l)) with (map Word i ++ Sign 44 :: listed (j :: l)). rewrite E, <- app_assoc. reflexivity.
Qed.
Lemma written_signs i c : In (Sign c) (written i) -> In c [47; 46; 123; 44; 125]%N.
Proof.
  unfold written, braces. intros [E|I]; [discriminate E|]. rewrite !in_app_iff in I. destruct I as [I|[I|I]].
  - apply segments_signs in I as ->. cbn. auto.
  - destruct (items i) as [(l & comma)|]; [|destruct I]. rewrite !in_app_iff in I. destruct I as [I|[I|[I|I]]].
    + destruct I as [E|[E|[]]]; injection E as <-; cbn; auto.
    + apply listed_signs in I as ->. cbn. auto.
    + cbn in I. destruct comma; [|destruct I]. destruct I as [E|[]]. injection E as <-. cbn. auto 6.
    + destruct I as [E|[]]. injection E as <-. cbn. auto 7.
  - destruct (alias i); [|destruct I]. destruct I as [E|[E|[]]]; discriminate E.
Qed.
Lemma all_space s i : tokens s = written i -> has_comment s = false -> Forall (fun c => is_whitespace c = true -> space c = true) s.
Proof.
  intros R H. unfold tokens in R. rewrite no_comment in R by exact H. apply Forall_forall. intros c I W.
  destruct (space c) eqn:S; [reflexivity|]. exfalso.
  pose proof (sign_in s c (whitespace_not_word c W) S [] I) as J. rewrite R in J. apply written_signs in J.
  apply whitespace_cases in W. cbn in J, W. intuition congruence.
Qed.
(** The end of [a] is its last character that is no space, and spaces. *)
Lemma ends a : Forall (fun c => is_whitespace c = true -> space c = true) a -> forall u, In (Word u) (words_from [] a) ->
  exists a' x ws, a = a' ++ x :: ws /\ is_whitespace x = false /\ Forall (fun c => is_whitespace c = true) ws
    /\ Forall (fun c => space c = true) ws /\ words_from [] (a' ++ [x]) = words_from [] a.
Proof.
  intros F u I. destruct (rfind_cases (fun c => negb (is_whitespace c)) a) as [(a' & x & ws & -> & X & W)|W].
  - exists a', x, ws. apply negb_true_iff in X. apply Forall_app in F as (_ & F). inversion F as [|? ? _ F']; subst.
    assert (Forall (fun c => is_whitespace c = true) ws) as G by (eapply Forall_impl; [|exact W]; cbn; intros c C; apply negb_false_iff, C).
    assert (Forall (fun c => space c = true) ws) as S.
    { rewrite Forall_forall in *. intros c C. apply F'; [exact C|]. apply G, C. }
    split; [reflexivity|]. split; [exact X|]. split; [exact G|]. split; [exact S|].
    change (a' ++ x :: ws) with (a' ++ [x] ++ ws). rewrite app_assoc, (words_spaces (a' ++ [x]) ws S). reflexivity.
  - exfalso. refine (no_words a _ u I). eapply Forall_impl; [|exact W]. intros c C. apply whitespace_not_word. apply negb_false_iff, C.
Qed.
Lemma not_space c : is_whitespace c = false -> space c = false.
Proof.
  intro H. destruct (space c) eqn:S; [|reflexivity]. unfold space in S.
  apply orb_prop in S as [S|S]; [apply orb_prop in S as [S|S]; [apply orb_prop in S as [S|S]|]|]; apply N.eqb_eq in S as ->; discriminate H.
Qed.
Lemma starts_at c b : c <> 47%N -> hd_error (c :: b) <> Some 47%N.
Proof. cbn. congruence. Qed.
Lemma hd_spaces ws c b : Forall (fun c => space c = true) ws -> c <> 47%N -> hd_error (ws ++ c :: b) <> Some 47%N.
Proof. intros F N. inversion F as [|d ? S _]; subst; cbn; intro E; injection E as ->; [congruence|discriminate S]. Qed.
Lemma comment_spaces ws : Forall (fun c => space c = true) ws -> has_comment ws = false.
Proof.
  induction 1 as [|c ws S F IH]; [reflexivity|]. cbn. rewrite IH. destruct (N.eqb_spec c 47) as [->|_]; [discriminate S|reflexivity].
Qed.
Lemma item_then name item ws t c : an_item name item -> Forall (fun c => space c = true) ws -> word_char t = false -> space t = false ->
  words_from [] (name ++ ws ++ t :: c) = map Word item ++ Sign t :: words_from [] c.
Proof.
  intros (_ & H & T) F W S. unfold tokens in T. rewrite no_comment in T by exact H.
  assert (words_from [] (ws ++ t :: c) = Sign t :: words_from [] c) as E.
  { rewrite words_app by exact W. rewrite (only_spaces ws F). cbn. rewrite W, S. reflexivity. }
  destruct F as [|d ws D F].
  - cbn [app] in *. rewrite words_app by exact W. rewrite T, E. reflexivity.
  - cbn [app] in *. rewrite words_app by apply space_not_word, D. rewrite T, E. reflexivity.
Qed.

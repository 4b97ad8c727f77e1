(** The heaps of DigHeap.v are priority queues. *)
From Coq Require Import Permutation.
From Verif Require Import Common DigHeap.
Open Scope Z_scope.

Section DigHeapProofs.
Context {A : Type}.
Variable key : A -> Z.

Definition path (p : positive) : list bool := path_to p [].
Lemma path_acc p acc : path_to p acc = path p ++ acc.
Proof.
  unfold path. revert acc. induction p as [p IH|p IH|]; intros acc; cbn [path_to]; [| |reflexivity].
  - rewrite IH, (IH [true]), <- app_assoc. reflexivity.
  - rewrite IH, (IH [false]), <- app_assoc. reflexivity.
Qed.
Lemma path_xO p : path (xO p) = path p ++ [false].
Proof. unfold path at 1. cbn [path_to]. apply path_acc. Qed.
Lemma path_xI p : path (xI p) = path p ++ [true].
Proof. unfold path at 1. cbn [path_to]. apply path_acc. Qed.
Lemma path_inj p q : path p = path q -> p = q.
Proof.
  revert q. induction p as [p IH|p IH|]; intros [q|q|]; rewrite ?path_xO, ?path_xI; intros E;
    try (apply app_inj_tail in E; destruct E as (E&B); try discriminate B; apply IH in E; now subst);
    try reflexivity; exfalso; symmetry in E || idtac; cbv in E || idtac;
    first [apply (f_equal (@length bool)) in E; rewrite app_length in E; cbn [length path path_to] in E; lia].
Qed.
Lemma path_surj l : exists p, path p = l.
Proof.
  induction l as [|b l (p&IH)] using rev_ind; [exists xH; reflexivity|]. destruct b; [exists (xI p); rewrite path_xI|exists (xO p); rewrite path_xO]; now rewrite IH.
Qed.

Fixpoint has (t : tree A) (p : list bool) : bool :=
  match t, p with Leaf, _ => false | Node _ _ _, [] => true | Node _ l r, b :: p' => has (if b then r else l) p' end.
Fixpoint ord (t : tree A) : Prop :=
  match t with Leaf => True | Node x l r => (forall y, In y (values l ++ values r) -> key y <= key x) /\ ord l /\ ord r end.
Definition root (t : tree A) : option A := match t with Leaf => None | Node x _ _ => Some x end.
Lemma root_in t x : root t = Some x -> In x (values t).
Proof. destruct t; [discriminate|]. intros [= ->]. left. reflexivity. Qed.

Lemma insert_ok p : forall x t, has t p = false -> (p = [] \/ has t (removelast p) = true) ->
  exists t' up, insert_at key p x t = Ok (t', up) /\ Permutation (values t') (x :: values t) /\
    (forall q, has t' q = (has t q || if list_eq_dec bool_dec q p then true else false)) /\ (ord t -> ord t') /\
    root t' = (if up then Some x else root t) /\ t' <> Leaf.
Proof.
  induction p as [|b p IH]; intros x t Hn Hp.
  - destruct t as [|y l r]; [|discriminate Hn]. exists (Node x Leaf Leaf), true. split; [reflexivity|]. split; [apply Permutation_refl|]. split.
    + intros [|b q]; [reflexivity|]. cbn [has]. destruct b; reflexivity.
    + split; [|split; [reflexivity|discriminate]]. intros _. cbn [ord values app]. split; [intros y []|auto].
  - destruct t as [|y l r].
    { destruct Hp as [Hp|Hp]; [discriminate Hp|]. discriminate Hp. }
    set (ch := if b then r else l). cbn [has] in Hn. fold ch in Hn.
    assert (Hc : p = [] \/ has ch (removelast p) = true).
    { destruct p as [|b' p]; [left; reflexivity|right]. destruct Hp as [Hp|Hp]; [discriminate Hp|]. exact Hp. }
    destruct (IH x ch Hn Hc) as (t'&up&E&P&S0&O&R&N). cbn [insert_at]. fold ch. rewrite E. cbn [bind].
    destruct t' as [|z l' r']; [congruence|].
    assert (Hin : forall q, has (Node y l r) q || (if list_eq_dec bool_dec q (b :: p) then true else false) =
      match q with [] => true | c :: q' => if Bool.eqb c b then has (Node z l' r') q' else has (if c then r else l) q' end).
    { intros [|c q]; [reflexivity|]. change (has (Node y l r) (c :: q)) with (has (if c then r else l) q). destruct (Bool.eqb c b) eqn:B.
      - apply Bool.eqb_prop in B. subst c. fold ch. rewrite S0. f_equal. destruct (list_eq_dec bool_dec (b :: q) (b :: p)) as [E1|E1], (list_eq_dec bool_dec q p) as [E2|E2]; try reflexivity; exfalso; [apply E2; congruence|apply E1; congruence].
      - destruct (list_eq_dec bool_dec (c :: q) (b :: p)) as [E1|E1]; [|apply orb_false_r]. exfalso. injection E1 as -> _. rewrite Bool.eqb_reflx in B. discriminate B. }
    assert (Pall : Permutation (values (if b then Node y l (Node z l' r') else Node y (Node z l' r') r)) (x :: values (Node y l r))).
    { subst ch. destruct b; cbn [values] in *.
      - rewrite P. rewrite perm_swap. constructor. rewrite Permutation_middle. reflexivity.
      - rewrite P. rewrite perm_swap. constructor. reflexivity. }
    destruct (up && (key y <? key z)) eqn:C.
    + apply andb_true_iff in C. destruct C as (-> &C). apply Z.ltb_lt in C. cbn [root] in R. injection R as ->.
      exists (if b then Node x l (Node y l' r') else Node x (Node y l' r') r), true. split; [reflexivity|]. split.
      { rewrite <- Pall. destruct b; cbn [values].
        - rewrite <- !Permutation_middle. apply perm_swap.
        - apply perm_swap. }
      split.
      { intros q. rewrite Hin. destruct q as [|c q]; [destruct b; reflexivity|]. destruct b, c; cbn [has Bool.eqb]; reflexivity. }
      split; [|split; [destruct b; reflexivity|destruct b; discriminate]].
      intros Ht. cbn [ord] in Ht. destruct Ht as (Hy&Ol&Or). assert (Oc : ord ch) by (subst ch; destruct b; assumption). specialize (O Oc). cbn [ord] in O. destruct O as (_&Ol'&Or').
      assert (Pc : Permutation (values l' ++ values r') (values ch)) by (cbn [values] in P; apply Permutation_cons_inv in P; exact P).
      assert (Hc' : forall w, In w (values l' ++ values r') -> key w <= key y).
      { intros w Hw. apply Hy. apply (Permutation_in _ Pc) in Hw. apply in_app_iff. subst ch. destruct b; auto. }
      assert (Hs : forall w, In w (values (if b then l else r)) -> key w <= key y) by (intros w Hw; apply Hy, in_app_iff; destruct b; auto).
      destruct b; cbn [ord values]; (split; [|auto]); intros w Hw; apply in_app_iff in Hw; cbn [In] in Hw.
      * destruct Hw as [Hw|[<-|Hw]]; [specialize (Hs w Hw); lia|lia|specialize (Hc' w Hw); lia].
      * destruct Hw as [[<-|Hw]|Hw]; [lia|specialize (Hc' w Hw); lia|specialize (Hs w Hw); lia].
    + exists (if b then Node y l (Node z l' r') else Node y (Node z l' r') r), false. split; [reflexivity|]. split; [exact Pall|]. split.
      { intros q. rewrite Hin. destruct q as [|c q]; [destruct b; reflexivity|]. destruct b, c; cbn [has Bool.eqb]; reflexivity. }
      split; [|split; [destruct b; reflexivity|destruct b; discriminate]].
      intros Ht. cbn [ord] in Ht. destruct Ht as (Hy&Ol&Or). assert (Oc : ord ch) by (subst ch; destruct b; assumption). specialize (O Oc).
      assert (Hyc : forall w, In w (values ch) -> key w <= key y) by (intros w Hw; apply Hy, in_app_iff; subst ch; destruct b; auto).
      assert (Hx : key x <= key y).
      { apply andb_false_iff in C. destruct up.
        - destruct C as [C|C]; [discriminate C|]. apply Z.ltb_ge in C. cbn [root] in R. injection R as ->. exact C.
        - cbn [root] in R. symmetry in R. apply root_in in R. specialize (Hyc _ R). assert (Ix : In x (values (Node z l' r'))) by (apply (Permutation_in _ (Permutation_sym P)); left; reflexivity).
          cbn [ord values] in O, Ix. destruct Ix as [<-|Ix]; [exact Hyc|]. destruct O as (O&_). specialize (O _ Ix). lia. }
      assert (Hn' : forall w, In w (values (Node z l' r')) -> key w <= key y).
      { intros w Hw. apply (Permutation_in _ P) in Hw. destruct Hw as [<-|Hw]; [exact Hx|apply Hyc, Hw]. }
      assert (Hs : forall w, In w (values (if b then l else r)) -> key w <= key y) by (intros w Hw; apply Hy, in_app_iff; destruct b; auto).
      destruct b; cbn [ord]; (split; [intros w Hw; apply in_app_iff in Hw; destruct Hw; auto|]); [exact (conj Ol O)|exact (conj O Or)].
Qed.
Lemma remove_ok p : forall t, has t p = true -> (forall b, has t (p ++ [b]) = false) ->
  exists z t', remove_at p t = Ok (z, t') /\ Permutation (values t) (z :: values t') /\
    (forall q, has t' q = (has t q && if list_eq_dec bool_dec q p then false else true)) /\ (ord t -> ord t') /\ (p <> [] -> root t' = root t).
Proof.
  induction p as [|b p IH]; intros t Hp Hn; (destruct t as [|y l r]; [discriminate Hp|]).
  - exists y, Leaf. split; [reflexivity|]. assert (l = Leaf) by (specialize (Hn false); destruct l; [reflexivity|discriminate Hn]). assert (r = Leaf) by (specialize (Hn true); destruct r; [reflexivity|discriminate Hn]). subst.
    split; [apply Permutation_refl|]. split; [|split; [intros _; exact I|congruence]]. intros [|[] q]; reflexivity.
  - set (ch := if b then r else l). cbn [has] in Hp. fold ch in Hp. assert (Hc : forall b0, has ch (p ++ [b0]) = false) by (intros b0; specialize (Hn b0); cbn [app has] in Hn; exact Hn).
    destruct (IH ch Hp Hc) as (z&t'&E&P&S0&O&_). cbn [remove_at]. fold ch. rewrite E. cbn [bind]. exists z, (if b then Node y l t' else Node y t' r). split; [reflexivity|]. split.
    { subst ch. destruct b; cbn [values]; rewrite P; [rewrite <- Permutation_middle|cbn [app]]; apply perm_swap. }
    split.
    { intros q. destruct q as [|c q]; [destruct b; reflexivity|]. assert (B : (if list_eq_dec bool_dec (c :: q) (b :: p) then false else true) = (if Bool.eqb c b then if list_eq_dec bool_dec q p then false else true else true)).
      { destruct (Bool.eqb c b) eqn:B; [apply Bool.eqb_prop in B; subst c; destruct (list_eq_dec bool_dec (b :: q) (b :: p)) as [E1|E1], (list_eq_dec bool_dec q p) as [E2|E2]; try reflexivity; exfalso; [apply E2; congruence|apply E1; congruence]|].
        destruct (list_eq_dec bool_dec (c :: q) (b :: p)) as [E1|E1]; [|reflexivity]. exfalso. injection E1 as -> _. rewrite Bool.eqb_reflx in B. discriminate B. }
      rewrite B. subst ch. destruct b, c; cbn [has Bool.eqb]; rewrite ?S0, ?andb_true_r; reflexivity. }
    split; [|intros _; destruct b; reflexivity]. intros (Hy&Ol&Or). assert (Oc : ord ch) by (subst ch; destruct b; assumption). specialize (O Oc).
    assert (Hs : forall w, In w (values t') -> In w (values ch)) by (intros w Hw; apply (Permutation_in _ (Permutation_sym P)); right; exact Hw).
    subst ch. destruct b; cbn [ord]; (split; [intros w Hw; apply Hy; apply in_app_iff in Hw; apply in_app_iff; destruct Hw as [Hw|Hw]; auto|auto]).
Qed.
Lemma down_ok t : forall x y l r, t = Node y l r -> ord l -> ord r ->
  Permutation (values (restore_down key x t)) (x :: values l ++ values r) /\ ord (restore_down key x t) /\ forall q, has (restore_down key x t) q = has t q.
Proof.
  induction t as [|v l IHl r IHr]; intros x y l0 r0 E Ol Or; [discriminate E|]. injection E as <- <- <-.
  cbn [restore_down]. set (sl := match l with Leaf => false | Node a _ _ => negb (key a <=? key x) end). set (sr := match r with Leaf => false | Node b _ _ => negb (key b <=? key x) end).
  set (ll := match l, r with Node a _ _, Node b _ _ => key b <? key a | _, _ => false end).
  destruct (sl && (negb sr || ll)) eqn:C.
  - apply andb_true_iff in C. destruct C as (C1&C2). destruct l as [|a l1 l2]; [discriminate C1|]. subst sl. cbn beta iota in C1. apply negb_true_iff, Z.leb_gt in C1.
    cbn [ord] in Ol. destruct Ol as (Ha&O1&O2). destruct (IHl x a l1 l2 eq_refl O1 O2) as (P&O&Hq). set (d := restore_down key x (Node a l1 l2)) in *.
    split; [|split].
    + cbn [values]. rewrite P. cbn [app]. rewrite perm_swap. reflexivity.
    + cbn [ord]. split; [|split; [exact O|exact Or]]. intros w Hw. apply in_app_iff in Hw. destruct Hw as [Hw|Hw].
      * apply (Permutation_in _ P) in Hw. destruct Hw as [<-|Hw]; [lia|apply Ha, Hw].
      * destruct r as [|b r1 r2]; [destruct Hw|]. cbn [values ord] in Hw, Or. assert (key b <= key a).
        { subst sr ll. cbn beta iota in C2. apply orb_true_iff in C2. destruct C2 as [C2|C2]; [rewrite negb_involutive in C2; apply Z.leb_le in C2; lia|apply Z.ltb_lt in C2; lia]. }
        destruct Hw as [<-|Hw]; [assumption|]. destruct Or as (Hb&_). specialize (Hb w Hw). lia.
    + intros [|[] q]; [reflexivity|reflexivity|]. cbn [has]. apply Hq.
  - destruct sr eqn:D.
    + destruct r as [|b r1 r2]; [discriminate D|]. subst sr. cbn beta iota in D. apply negb_true_iff, Z.leb_gt in D. cbn [ord] in Or. destruct Or as (Hb&O1&O2).
      destruct (IHr x b r1 r2 eq_refl O1 O2) as (P&O&Hq). set (d := restore_down key x (Node b r1 r2)) in *. split; [|split].
      * cbn [values]. rewrite P. rewrite <- !Permutation_middle. apply perm_swap.
      * cbn [ord]. split; [|split; [exact Ol|exact O]]. intros w Hw. apply in_app_iff in Hw. destruct Hw as [Hw|Hw].
        -- destruct l as [|a l1 l2]; [destruct Hw|]. cbn [values ord] in Hw, Ol. assert (key a <= key b).
           { subst sl ll. cbn beta iota in C. apply andb_false_iff in C. destruct C as [C|C]; [apply negb_false_iff, Z.leb_le in C; lia|]. cbn [negb orb] in C. apply Z.ltb_ge in C. exact C. }
           destruct Hw as [<-|Hw]; [assumption|]. destruct Ol as (Ha&_). specialize (Ha w Hw). lia.
        -- apply (Permutation_in _ P) in Hw. destruct Hw as [<-|Hw]; [lia|apply Hb, Hw].
      * intros [|[] q]; [reflexivity| |reflexivity]. cbn [has]. apply Hq.
    + assert (sl = false) by (destruct sl; [discriminate C|reflexivity]). split; [apply Permutation_refl|]. split; [|intros [|c q]; reflexivity].
      cbn [ord]. split; [|auto]. intros w Hw. apply in_app_iff in Hw. subst sl sr. destruct Hw as [Hw|Hw].
      * destruct l as [|a l1 l2]; [destruct Hw|]. cbn beta iota in H. apply negb_false_iff, Z.leb_le in H. cbn [values ord] in Hw, Ol. destruct Hw as [<-|Hw]; [exact H|]. destruct Ol as (Ha&_). specialize (Ha w Hw). lia.
      * destruct r as [|b r1 r2]; [destruct Hw|]. cbn beta iota in D. apply negb_false_iff, Z.leb_le in D. cbn [values ord] in Hw, Or. destruct Hw as [<-|Hw]; [exact D|]. destruct Or as (Hb&_). specialize (Hb w Hw). lia.
Qed.

(** ** The queue *)
Definition hvalues (h : heap A) : list A := values (h_root h).
Definition valid (h : heap A) : Prop := ord (h_root h) /\ forall q, has (h_root h) (path q) = match h_count h with N0 => false | Npos c => Pos.leb q c end.
Lemma empty_valid : valid empty_heap.
Proof. split; [exact I|intros q; reflexivity]. Qed.
Lemma removelast_path q : q <> xH -> exists p, path q = path p ++ [match q with xI _ => true | _ => false end] /\ (p < q)%positive.
Proof. destruct q as [p|p|]; intros N; [exists p; rewrite path_xI|exists p; rewrite path_xO|congruence]; (split; [reflexivity|lia]). Qed.
Lemma add_ok x h : valid h -> exists h', add_heap key x h = Ok h' /\ valid h' /\ Permutation (hvalues h') (x :: hvalues h).
Proof.
  intros (O&S0). destruct h as [c t]. unfold add_heap, hvalues in *. cbn [h_count h_root] in *. destruct c as [|c].
  - assert (t = Leaf) by (specialize (S0 xH); destruct t; [reflexivity|discriminate S0]). subst t. exists (mkHeap 1 (Node x Leaf Leaf)). split; [reflexivity|]. split; [|apply Permutation_refl].
    split; cbn [h_count h_root]; [cbn [ord values app]; split; [intros y []|auto]|]. intros q. destruct (Pos.eq_dec q 1) as [->|N]; [reflexivity|]. destruct (removelast_path q N) as (p&Ep&_). rewrite (proj2 (Pos.leb_gt q 1)) by lia.
    destruct (path q) as [|b l] eqn:Eq; [destruct (path p); discriminate Ep|]. cbn [has]. destruct b; reflexivity.
  - fold (path (Pos.succ c)). destruct (insert_ok (path (Pos.succ c)) x t) as (t'&up&E&P&H&Ht&_&_).
    + rewrite S0. apply Pos.leb_gt. lia.
    + right. destruct (removelast_path (Pos.succ c)) as (p&Ep&Lp); [lia|]. rewrite Ep, removelast_last, S0. apply Pos.leb_le. lia.
    + rewrite E. cbn [bind]. eexists. split; [reflexivity|]. cbn [h_root]. split; [|exact P]. split; [apply Ht, O|]. cbn [h_root h_count]. intros q. rewrite H, S0. destruct (list_eq_dec bool_dec (path q) (path (Pos.succ c))) as [Eq|Nq].
      * apply path_inj in Eq. subst q. rewrite orb_true_r. symmetry. apply Pos.leb_le. lia.
      * rewrite orb_false_r. assert (q <> Pos.succ c) by (intros ->; congruence). destruct (Pos.leb_spec q c), (Pos.leb_spec q (Pos.succ c)); try reflexivity; lia.
Qed.
Lemma pop_ok h : valid h ->
  (hvalues h = [] /\ pop_heap key h = Ok None) \/
  exists x h', pop_heap key h = Ok (Some (x, h')) /\ valid h' /\ Permutation (hvalues h) (x :: hvalues h') /\ (forall y, In y (hvalues h) -> key y <= key x) /\ root (h_root h) = Some x.
Proof.
  intros (O&S0). destruct h as [c t]. unfold pop_heap, hvalues in *. cbn [h_count h_root] in *. destruct t as [|x l r]; [left; split; reflexivity|]. right.
  destruct c as [|c]; [specialize (S0 xH); discriminate S0|]. assert (Mx : forall y, In y (values (Node x l r)) -> key y <= key x).
  { intros y [<-|Hy]; [lia|]. cbn [ord] in O. apply (proj1 O), Hy. }
  destruct (Pos.eq_dec c 1) as [->|N].
  - exists x, empty_heap. split; [reflexivity|]. split; [apply empty_valid|]. split; [|split; [exact Mx|reflexivity]]. cbn [values empty_heap h_root].
    assert (l = Leaf) by (specialize (S0 2%positive); destruct l; [reflexivity|discriminate S0]). assert (r = Leaf) by (specialize (S0 3%positive); destruct r; [reflexivity|discriminate S0]). subst. apply Permutation_refl.
  - destruct (remove_ok (path c) (Node x l r)) as (z&t'&E&P&H&Ht&Hr).
    + rewrite S0. apply Pos.leb_le. lia.
    + intros b. destruct b; [rewrite <- path_xI|rewrite <- path_xO]; rewrite S0; apply Pos.leb_gt; lia.
    + assert (Nn : path c <> []) by (intros E0; apply N; apply path_inj; exact E0). specialize (Hr Nn). destruct t' as [|y l' r']; [discriminate Hr|]. cbn [root] in Hr. injection Hr as ->. specialize (Ht O). cbn [ord] in Ht. destruct Ht as (_&Ol&Or).
      destruct (down_ok (Node x l' r') z x l' r' eq_refl Ol Or) as (P'&O'&H').
      exists x, (mkHeap (Npos c - 1) (restore_down key z (Node x l' r'))). split; [destruct c; [unfold path in E; rewrite E; reflexivity|unfold path in E; rewrite E; reflexivity|congruence]|]. cbn [h_root h_count]. split; [|split; [|split; [exact Mx|reflexivity]]].
      * split; [exact O'|]. cbn [h_root h_count]. intros q. rewrite H', H, S0. replace (N.pos c - 1)%N with (N.pos (Pos.pred c)) by (clear - N; destruct c; [reflexivity|cbn; rewrite Pos.pred_double_spec; reflexivity|congruence]).
        destruct (list_eq_dec bool_dec (path q) (path c)) as [Eq|Nq].
        -- apply path_inj in Eq. subst q. rewrite andb_false_r. symmetry. apply Pos.leb_gt. lia.
        -- rewrite andb_true_r. assert (q <> c) by (intros ->; congruence). destruct (Pos.leb_spec q c), (Pos.leb_spec q (Pos.pred c)); try reflexivity; lia.
      * rewrite P. rewrite P'. cbn [values]. apply perm_swap.
Qed.
Lemma check_top_ok k h : check_top key k h = true <-> exists x, root (h_root h) = Some x /\ key x = k.
Proof.
  unfold check_top. destruct (h_root h) as [|x l r]; cbn [root].
  - split; [discriminate|intros (x&E&_); discriminate E].
  - rewrite Z.eqb_eq. split; [intros E; exists x; auto|intros (y&[= <-]&E); exact E].
Qed.
(** Adding one value after another. *)
Fixpoint add_all (l : list A) (h : heap A) : outcome (heap A) := match l with [] => Ok h | x :: l' => bind (add_heap key x h) (add_all l') end.
Lemma add_all_ok l : forall h, valid h -> exists h', add_all l h = Ok h' /\ valid h' /\ Permutation (hvalues h') (l ++ hvalues h).
Proof.
  induction l as [|x l IH]; intros h V; [exists h; split; [reflexivity|split; [exact V|apply Permutation_refl]]|]. destruct (add_ok x h V) as (h1&E&V1&P1). cbn [add_all]. rewrite E. cbn [bind].
  destruct (IH h1 V1) as (h2&E2&V2&P2). exists h2. split; [exact E2|split; [exact V2|]]. rewrite P2, P1. rewrite <- Permutation_middle. reflexivity.
Qed.
End DigHeapProofs.

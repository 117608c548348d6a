(** Textual identifiers determine statements. *)
From Coq Require Import String DecimalString DecimalZ DecimalFacts.
From Verif Require Import Base World Val Expr Utils Stmt Prove Verify Spec Shapes Ident Lib DictProofs Keeps Tree Wire.
Open Scope Z_scope.
Open Scope list_scope.

(** ** Decimal numbers *)
Definition numc (c : ascii) : Prop := In c (lit "-0123456789").
Lemma uint_chars u : forall c, In c (lit (NilEmpty.string_of_uint u)) -> numc c.
Proof. induction u; simpl; intros c H; try destruct H as [<-|H]; try (unfold numc; simpl; tauto); auto. Qed.
Lemma dec_chars {W : World} z c : In c (dec z) -> numc c.
Proof.
  unfold dec. intros H. destruct (Z.to_int z) as [u|u]; simpl in H.
  - destruct u; simpl in H; try destruct H as [<-|H]; try (unfold numc; simpl; tauto); apply uint_chars in H; auto.
  - destruct H as [<-|H]; [unfold numc; simpl; tauto|]. destruct u; simpl in H; try destruct H as [<-|H]; try (unfold numc; simpl; tauto); apply uint_chars in H; auto.
Qed.
Lemma lit_inj a b : lit a = lit b -> a = b.
Proof. intros H. rewrite <- (string_of_list_ascii_of_string a), <- (string_of_list_ascii_of_string b). unfold lit in H. now rewrite H. Qed.
Lemma dec_inj a b : dec a = dec b -> a = b.
Proof.
  unfold dec. intros H. apply lit_inj in H.
  assert (N : forall z, Z.to_int z <> Decimal.Pos Decimal.Nil /\ Z.to_int z <> Decimal.Neg Decimal.Nil).
  { intros z. split; intros E; apply (f_equal Z.of_int) in E as E2; rewrite DecimalZ.of_to in E2; subst z; discriminate E. }
  destruct (N a) as [A1 A2], (N b) as [B1 B2].
  assert (E : Some (Z.to_int a) = Some (Z.to_int b)).
  { rewrite <- (NilZero.isi (Z.to_int a)), <- (NilZero.isi (Z.to_int b)) by auto. now rewrite H. }
  injection E as E. now apply DecimalZ.to_int_inj.
Qed.
Lemma dec_cons z : exists c r, dec z = c :: r.
Proof.
  unfold dec. destruct (Z.to_int z) as [u|u]; simpl; eauto. destruct u; simpl; eauto.
Qed.

Section I.
Context {W : World}.

Lemma clean_split a : forall b u t, (forall c, In c a -> ~ In c (lit ",])}")) -> (forall c, In c b -> ~ In c (lit ",])}")) ->
  a ++ u = b ++ t -> stop u -> stop t -> u = t.
Proof.
  induction a as [|x a IH]; intros b u t Ha Hb E Su St.
  - destruct b as [|y b]; [exact E|]. simpl in E. subst u. exfalso. apply (Hb y); simpl; auto.
  - destruct b as [|y b].
    + simpl in E. subst t. exfalso. apply (Ha x); simpl; auto.
    + injection E as -> E. apply (IH b); auto; intros c H; [apply Ha|apply Hb]; simpl; auto.
Qed.

Hypothesis RO : repr_ok.

Lemma atom_sep v w u t : is_atom v -> is_atom w -> pystr v ++ u = pystr w ++ t -> stop u -> stop t -> u = t.
Proof.
  intros Av Aw E Su St. destruct (match v with VPt _ => true | _ => false end) eqn:Ev.
  - destruct v; try discriminate Ev. eapply (ro_sep RO); eauto.
  - destruct (match w with VPt _ => true | _ => false end) eqn:Ew.
    + destruct w; try discriminate Ew. symmetry. eapply (ro_sep RO); [exact Av|symmetry; exact E|auto|auto].
    + assert (C : forall x, is_atom x -> (match x with VPt _ => true | _ => false end) = false ->
         forall c, In c (pystr x) -> ~ In c (lit ",])}")).
      { intros x Ax Ex c H K. destruct x; try contradiction; try discriminate Ex.
        - simpl in H, K. repeat (destruct H as [<-|H]; [repeat (destruct K as [K|K]; [discriminate K|]); exact K|]). exact H.
        - apply dec_chars in H. simpl in K. unfold numc in H. simpl in H.
          repeat (destruct K as [<-|K]; [repeat (destruct H as [H|H]; [discriminate H|]); exact H|]). exact K. }
      eapply clean_split; [apply (C v)|apply (C w)| | |]; eauto.
Qed.

Definition delim : bytes := lit "[](){}, ".
(** The first character of a printed value. *)
Lemma atom_first v : is_atom v -> (exists c r, pystr v = c :: r /\ ~ In c delim) /\ ~ In "'"%char (pystr v) /\ ~ In """"%char (pystr v).
Proof.
  destruct v; intros A; try contradiction.
  - split; [exists "N"%char; eexists; split; [reflexivity|]|]; simpl; intuition discriminate.
  - split.
    + destruct (dec_cons z) as (c & r & E). exists c, r. split; [exact E|]. assert (N : numc c) by (apply (dec_chars z); rewrite E; simpl; auto).
      unfold numc in N. simpl in *. intros K. repeat (destruct K as [<-|K]; [repeat (destruct N as [N|N]; [discriminate N|]); exact N|]). exact K.
    + simpl. split; intros H; apply dec_chars in H; unfold numc in H; simpl in H; intuition discriminate.
  - split; [apply (ro_first RO)|apply (ro_quote RO)].
Qed.
Lemma qchar_is s : qchar s = "'"%char \/ qchar s = """"%char.
Proof. unfold qchar. destruct (_ && _); auto. Qed.
Lemma pystr_first v : exists c r, pystr v = c :: r /\ ~ In c (lit "]}), ").
Proof.
  destruct v; try (eexists; eexists; split; [reflexivity|]; simpl; intuition discriminate).
  - destruct (atom_first (VInt z) I) as [(c & r & E & N) _]. exists c, r. split; auto. intros K. apply N. unfold delim. simpl in *. tauto.
  - destruct (atom_first (VPt p) I) as [(c & r & E & N) _]. exists c, r. split; auto. intros K. apply N. unfold delim. simpl in *. tauto.
  - cbn [pystr]. unfold quote. eexists. eexists. split; [reflexivity|]. destruct (qchar_is s) as [-> | ->]; simpl; intuition discriminate.
Qed.
(** Reading a quoted character back. *)
Definition unhex (c : ascii) : N := let n := N_of_ascii c in if (n <? 58)%N then (n - 48)%N else (n - 87)%N.
Definition rdq (q : ascii) (b : bytes) : option (option ascii * bytes) :=
  match b with
  | [] => None
  | c :: b =>
      if Ascii.eqb c q then Some (None, b)
      else if Ascii.eqb c "\" then
        match b with
        | [] => None
        | d :: b =>
            if Ascii.eqb d "t" then Some (Some "009"%char, b) else if Ascii.eqb d "n" then Some (Some "010"%char, b) else if Ascii.eqb d "r" then Some (Some "013"%char, b)
            else if Ascii.eqb d "x" then match b with x :: y :: b => Some (Some (ascii_of_N (unhex x * 16 + unhex y)), b) | _ => None end
            else Some (Some d, b)
        end
      else Some (Some c, b)
  end.
Lemma rdq_end q r : rdq q (q :: r) = Some (None, r).
Proof. unfold rdq. now rewrite Ascii.eqb_refl. Qed.
Lemma rdq_esc q bin c r : q = "'"%char \/ q = """"%char -> rdq q (esc q bin c ++ r) = Some (Some c, r).
Proof. intros [-> | ->]; destruct bin; destruct c as [[] [] [] [] [] [] [] []]; reflexivity. Qed.
Lemma esc_split q bin a : q = "'"%char \/ q = """"%char -> forall b u t, flat_map (esc q bin) a ++ q :: u = flat_map (esc q bin) b ++ q :: t -> a = b /\ u = t.
Proof.
  intros Q. induction a as [|x a IH]; intros [|y b] u t E; cbn [flat_map app] in E.
  - injection E as ->. auto.
  - exfalso. apply (f_equal (rdq q)) in E. rewrite <- app_assoc, rdq_end, rdq_esc in E by auto. discriminate E.
  - exfalso. apply (f_equal (rdq q)) in E. rewrite <- app_assoc, rdq_end, rdq_esc in E by auto. discriminate E.
  - apply (f_equal (rdq q)) in E. rewrite <- !app_assoc, !rdq_esc in E by auto. injection E as -> E. destruct (IH _ _ _ E) as [-> ->]. auto.
Qed.
Lemma quote_split bin a : forall b u t, quote bin a ++ u = quote bin b ++ t -> a = b /\ u = t.
Proof.
  unfold quote. intros b u t E. cbn [app] in E. rewrite <- !app_assoc in E. cbn [app] in E.
  assert (Q : qchar a = qchar b) by (injection E as E _; exact E). rewrite <- Q in E. injection E as E. apply esc_split in E; [exact E|apply qchar_is].
Qed.

Definition plist := fix go (first : bool) (l : list val) : bytes := match l with
                          | [] => lit "]"
                          | x :: l => sep (negb first) ++ pystr x ++ go false l
                          end.
Definition ptuple := fix go (n : nat) (l : list val) : bytes := match l with
                          | [] => if Nat.eqb n 1 then lit ",)" else lit ")"
                          | x :: l => sep (negb (Nat.eqb n 0)) ++ pystr x ++ go (S n) l
                          end.
Definition pdict := fix go (first : bool) (d : list (bytes * val)) : bytes := match d with
                          | [] => lit "}"
                          | (k, x) :: d => sep (negb first) ++ quote false k ++ lit ": " ++ pystr x ++ go false d
                          end.
Lemma pystr_list l : pystr (VList l) = lit "[" ++ plist true l. Proof. reflexivity. Qed.
Lemma pystr_tuple l : pystr (VTuple l) = lit "(" ++ ptuple 0 l. Proof. reflexivity. Qed.
Lemma pystr_dict l : pystr (VDict l) = lit "{" ++ pdict true l. Proof. reflexivity. Qed.

Definition decides (v : val) : Prop := forall w u t, pystr v ++ u = pystr w ++ t -> stop u -> stop t -> same v w /\ u = t.

Lemma stop_list l u : stop (plist false l ++ u).
Proof. destruct l; simpl; auto. Qed.
Lemma stop_tuple n l u : stop (ptuple (S n) l ++ u).
Proof. destruct l; simpl; auto. destruct n; simpl; auto. Qed.
Lemma stop_dict l u : stop (pdict false l ++ u).
Proof. destruct l as [|[k x] l]; simpl; auto. Qed.

Lemma first_not v u c b : In c (lit "]}), ") -> pystr v ++ u = c :: b -> False.
Proof. destruct (pystr_first v) as (c' & r & E & N). rewrite E. intros I H. injection H as -> H. auto. Qed.

Lemma plist_split l : Forall decides l -> forall b m u t, plist b l ++ u = plist b m ++ t -> Forall2 same l m /\ u = t.
Proof.
  induction 1 as [|x l D F IH]; intros b m u t E.
  - destruct m as [|y m]; [injection E as E; auto|]. exfalso. destruct b; simpl in E; [|discriminate E].
    rewrite <- app_assoc in E. symmetry in E. eapply first_not; [|exact E]. simpl; auto.
  - destruct m as [|y m].
    + exfalso. destruct b; simpl in E; [|discriminate E]. rewrite <- app_assoc in E. eapply first_not; [|exact E]. simpl; auto.
    + assert (E' : pystr x ++ plist false l ++ u = pystr y ++ plist false m ++ t).
      { destruct b; simpl in E; rewrite <- ?app_assoc in E; [exact E|]. injection E as E. exact E. }
      destruct (D _ _ _ E') as [S K]; try apply stop_list. apply IH in K as [F' ->]. auto.
Qed.
Lemma ptuple_split l : Forall decides l -> forall n m u t, ptuple n l ++ u = ptuple n m ++ t -> Forall2 same l m /\ u = t.
Proof.
  induction 1 as [|x l D F IH]; intros n m u t E.
  - destruct m as [|y m]; [destruct n as [|[|n]]; injection E as E; auto|]. exfalso.
    destruct n as [|[|n]]; simpl in E; [|discriminate E|discriminate E].
    rewrite <- app_assoc in E. symmetry in E. eapply first_not; [|exact E]. simpl; auto.
  - destruct m as [|y m].
    + exfalso. destruct n as [|[|n]]; simpl in E; [|discriminate E|discriminate E].
      rewrite <- app_assoc in E. eapply first_not; [|exact E]. simpl; auto.
    + assert (E' : pystr x ++ ptuple (S n) l ++ u = pystr y ++ ptuple (S n) m ++ t).
      { destruct n as [|n]; simpl in E; rewrite <- ?app_assoc in E; [exact E|]. injection E as E. exact E. }
      destruct (D _ _ _ E') as [S K]; try apply stop_tuple. apply IH in K as [F' ->]. auto.
Qed.
Lemma pdict_split l : Forall (fun kx => decides (snd kx)) l -> forall b m u t, pdict b l ++ u = pdict b m ++ t ->
  Forall2 (fun x y : bytes * val => fst x = fst y /\ same (snd x) (snd y)) l m /\ u = t.
Proof.
  induction 1 as [|[k x] l D F IH]; intros b m u t E.
  - destruct m as [|[k' y] m]; [injection E as E; auto|]. exfalso. destruct b; [|discriminate E]. simpl in E. unfold quote in E. injection E as E _. destruct (qchar_is k') as [X|X]; rewrite X in E; discriminate E.
  - destruct m as [|[k' y] m].
    + exfalso. destruct b; [|discriminate E]. simpl in E. unfold quote in E. injection E as E _. destruct (qchar_is k) as [X|X]; rewrite X in E; discriminate E.
    + assert (E' : quote false k ++ lit ": " ++ pystr x ++ pdict false l ++ u = quote false k' ++ lit ": " ++ pystr y ++ pdict false m ++ t).
      { destruct b; cbn [pdict negb sep app] in E; [|apply (f_equal (fun z => tl (tl z))) in E; cbn [tl lit list_ascii_of_string app] in E]; rewrite <- !app_assoc in E; rewrite <- ?app_comm_cons, <- ?app_assoc in E; exact E. }
      apply quote_split in E' as [-> E']. injection E' as E'.
      destruct (D _ _ _ E') as [S K]; try apply stop_dict. apply IH in K as [F' ->]. auto.
Qed.

Lemma atom_dec v : is_atom v \/ ~ is_atom v.
Proof. destruct v; simpl; auto. Qed.
Lemma atom_not v w u t : is_atom v -> ~ is_atom w -> stop u -> pystr v ++ u = pystr w ++ t -> False.
Proof.
  intros Av Aw S E. destruct (atom_first v Av) as [(c & r & Ev & N) Q]. rewrite Ev in *.
  destruct w; try (exfalso; apply Aw; exact I).
  - cbn [pystr] in E. unfold quote in E. cbn [app] in E. injection E as -> E. destruct Q as [Q1 Q2], (qchar_is s) as [X|X]; rewrite X in *; simpl in *; auto.
  - injection E as -> E. destruct r as [|c' r].
    + simpl in E. subst u. simpl in S. destruct (qchar_is b) as [X|X]; rewrite X in S; intuition discriminate.
    + unfold quote in E. cbn [app] in E. injection E as -> E. destruct Q as [Q1 Q2], (qchar_is b) as [X|X]; rewrite X in *; simpl in *; auto.
  - injection E as -> E. apply N. unfold delim. simpl; auto.
  - injection E as -> E. apply N. unfold delim. simpl; auto.
  - injection E as -> E. apply N. unfold delim. simpl; auto 10.
Qed.

Lemma pystr_decides v : decides v.
Proof.
  assert (HA : forall v, is_atom v -> decides v).
  { clear v. intros v A w u t E Su St. destruct (atom_dec w) as [B|B].
    - assert (u = t) by (apply (atom_sep v w); auto). subst t. apply app_inv_tail in E. split; [constructor; auto|reflexivity].
    - exfalso. apply (atom_not v w u t); auto. }
  assert (HN : forall v w u t, ~ is_atom v -> pystr v ++ u = pystr w ++ t -> stop t -> ~ is_atom w).
  { intros x w u t N E S A. apply (atom_not w x t u); auto. }
  induction v as [| | | s | s | l IH|l IH|d IH] using val_ind'; try (apply HA; exact I); intros w u t E Su St;
    (assert (B : ~ is_atom w) by (eapply HN; [|exact E|exact St]; simpl; tauto)); destruct w; try (exfalso; apply B; exact I); try (exfalso; clear -E; simpl in E; discriminate E);
    try (exfalso; clear -E; cbn [pystr] in E; unfold quote in E; cbn [app lit list_ascii_of_string] in E; injection E as E _; match type of E with context [qchar ?s] => destruct (qchar_is s) as [X|X]; rewrite X in E; discriminate E end).
  - apply quote_split in E as [-> ->]. split; [apply SmStr|reflexivity].
  - apply (f_equal (@tl ascii)) in E. change (quote true s ++ u = quote true b ++ t) in E. apply quote_split in E as [-> ->]. split; [apply SmBytes|reflexivity].
  - rewrite !pystr_list in E. injection E as E. apply plist_split in E as [F ->]; auto. split; [apply SmList; auto|reflexivity].
  - rewrite !pystr_tuple in E. injection E as E. apply ptuple_split in E as [F ->]; auto. split; [apply SmTuple; auto|reflexivity].
  - rewrite !pystr_dict in E. injection E as E. apply pdict_split in E as [F ->]; auto. split; [apply SmDict; auto|reflexivity].
Qed.

Lemma pystr_same v w : pystr v = pystr w -> same v w.
Proof.
  intros E. destruct (pystr_decides v w [] []) as [S _]; simpl; auto. now rewrite !app_nil_r.
Qed.
End I.

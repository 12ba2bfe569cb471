(** Property C195: DiversityModel used by several threads. *)
From Coq Require Import List Arith ZArith Bool Lia QArith Qcanon.
From Verif Require Import Base BaseLemmas Instances GaussModel DivModel ThreadModel ThreadProps DivThreadModel.
Import ListNotations.
Set Asymmetric Patterns.
Close Scope Q_scope. Close Scope Qc_scope. Open Scope nat_scope.

(** ** A call without interruption is [div_fit] *)
Lemma set_row_length {A} k (r : A) s : length (set_row k r s) = length s.
Proof. revert k. induction s as [|a s IH]; intros [|k]; cbn; auto. Qed.
Section Alone.
  Context {O : OArith}.
  Variable big : O.
  Variable isclose : O -> O -> bool.
  Hypothesis irreflexive : forall a : O, oltb a a = false.

  Lemma above_irrefl (v : ext O) : above v v = false.
  Proof. destruct v; cbn; [apply irreflexive|reflexivity]. Qed.
  Lemma filled_le (s : list (list O)) : filled big isclose s <= length s.
  Proof. induction s as [|r s IH]; cbn; [lia|]. destruct (isclose (hd zero r) big); lia. Qed.
  Lemma filled_app_one (pre s : list (list O)) (m : diversity O) k :
    drows m = pre ++ s -> dcols m <> 0 ->
    complete (count_code big isclose (length s) (length pre) k) m = complete (k (length pre + filled big isclose s)) m.
  Proof.
    revert pre. induction s as [|r s IH]; intros pre E D.
    - cbn. rewrite Nat.add_0_r. reflexivity.
    - cbn [length count_code peek complete]. rewrite E, nth_error_app2 by lia. rewrite Nat.sub_diag. cbn [nth_error filled].
      apply Nat.eqb_neq in D. rewrite D. destruct (isclose (hd zero r) big); [rewrite Nat.add_0_r; reflexivity|].
      specialize (IH (pre ++ [r])). rewrite app_length in IH. cbn [length] in IH. rewrite Nat.add_1_r in IH.
      rewrite IH; [f_equal; f_equal; lia|rewrite <- app_assoc; exact E|apply Nat.eqb_neq; exact D].
  Qed.
  Lemma search_alone (m : diversity O) x k : forall kks v j, (forall kk, In kk kks -> kk < length (drows m)) ->
    complete (search_code (dcols m) (length (drows m)) x kks v j k) m =
    let (v', j') := fold_left (fun a k => let u := least (ddist m) (set_row k x (drows m)) (length (drows m)) in if above u (fst a) then (u, Some k) else a) kks (v, j) in
    complete (k v' j') m.
  Proof.
    induction kks as [|kk t IH]; intros v j H; [reflexivity|]. cbn [search_code peek complete fold_left fst].
    unfold row_error, row_for. assert (L : (kk <? length (drows m)) = true) by (apply Nat.ltb_lt, H; left; reflexivity).
    rewrite L, Nat.eqb_refl, Nat.ltb_irrefl. cbn [orb].
    destruct (above (least (ddist m) (set_row kk x (drows m)) (length (drows m))) v); apply IH; intros kk' I; apply H; right; exact I.
  Qed.
  Lemma search_found (m : diversity O) x n : forall kks v j, (forall kk, In kk kks -> kk < n) ->
    match j with Some k => k < n | None => True end ->
    let (v', j') := fold_left (fun a k => let u := least (ddist m) (set_row k x (drows m)) (length (drows m)) in if above u (fst a) then (u, Some k) else a) kks (v, j) in
    match j' with Some k => k < n | None => v' = v /\ j = None end.
  Proof.
    induction kks as [|kk t IH]; intros v j H J; [cbn; destruct j; auto|]. cbn [fold_left fst].
    destruct (above _ v).
    - specialize (IH (least (ddist m) (set_row kk x (drows m)) (length (drows m))) (Some kk) (fun a I => H a (or_intror I)) (H kk (or_introl eq_refl))).
      cbv zeta in IH |- *. destruct (fold_left _ t _) as [v' [k|]]; [exact IH|]. destruct IH as [_ IH]. discriminate.
    - apply (IH v j); [intros a I; apply H; right; exact I|exact J].
  Qed.
  Lemma loop_alone : forall rows cc (m : diversity O) y, cc <= length (drows m) ->
    complete (fit_loop (dcols m) cc rows y) m = let (a, ys) := div_scan (cc, m) rows in (snd a, Ok (y ++ ys)).
  Proof.
    induction rows as [|x r IH]; intros cc m y L; [cbn; rewrite app_nil_r; reflexivity|].
    cbn [fit_loop div_scan]. cbn [peek complete]. unfold div_step. destruct (cc <? length (drows m)) eqn:C.
    - cbn [complete peek snd]. unfold put, row_error, row_for. rewrite C, Nat.eqb_refl. cbn [orb peek complete dvalue].
      specialize (IH (S cc) (mkDiv (ddist m) (dvalue m) (dcols m) (set_row cc x (drows m))) (y ++ [dvalue m])).
      cbn [dcols drows] in IH. rewrite set_row_length in IH. apply Nat.ltb_lt in C. rewrite IH by lia.
      destruct (div_scan _ r) as [a ys]. rewrite <- app_assoc. reflexivity.
    - apply Nat.ltb_ge in C. assert (E : cc = length (drows m)) by lia. subst cc. cbn [peek complete].
      rewrite search_alone by (intros kk I; apply in_seq in I; lia). unfold best.
      assert (F := search_found m x (length (drows m)) (seq 0 (length (drows m))) (dvalue m) None (fun kk I => proj2 (proj1 (in_seq _ _ _) I)) I).
      cbv zeta in F |- *. destruct (fold_left _ _ _) as [v j]. cbn [peek complete]. destruct (above v (dvalue m)) eqn:B.
      + cbn [complete poke peek]. set (kk := match j with Some k => k | None => length (drows m) - 1 end).
        unfold put, row_error, row_for. cbn [dcols drows ddist dvalue]. fold kk.
        destruct (kk <? length (drows m)) eqn:K.
        * rewrite Nat.eqb_refl. cbn [orb peek complete dvalue snd].
          specialize (IH (length (drows m)) (mkDiv (ddist m) v (dcols m) (set_row kk x (drows m))) (y ++ [v])).
          cbn [dcols drows] in IH. rewrite set_row_length in IH. rewrite IH by lia.
          destruct (div_scan _ r) as [a ys]. rewrite <- app_assoc. reflexivity.
        * exfalso. apply Nat.ltb_ge in K. destruct j as [k|]; [subst kk; lia|]. destruct F as [F _]. subst v. rewrite above_irrefl in B. discriminate.
      + cbn [complete peek snd]. rewrite IH by lia. destruct (div_scan _ r) as [a ys]. rewrite <- app_assoc. reflexivity.
  Qed.
  Lemma fit_code_ok (x : xarr O) (m : diversity O) : complete (fit_code big isclose x) m = div_fit big isclose m x.
  Proof.
    destruct x as [cols rows|n]; [|reflexivity]. cbn [fit_code div_fit].
    destruct ((length rows =? 0) || (cols =? 0))%bool eqn:B; [reflexivity|]. apply orb_false_iff in B. destruct B as [_ B]. apply Nat.eqb_neq in B.
    assert (G : forall m : diversity O, complete (peek (fun m : diversity O => if negb (cols =? dcols m)%nat then Ret (Err ValueError)
                 else peek (fun m => count_code big isclose (length (drows m)) 0 (fun cc => fit_loop cols cc rows [])))) m =
               if negb (cols =? dcols m)%nat then (m, Err ValueError)
               else let (a, y) := div_scan (filled big isclose (drows m), m) rows in (snd a, Ok y)).
    { intros m1. cbn [peek complete]. destruct (cols =? dcols m1) eqn:C; [|reflexivity]. cbn [negb peek complete]. apply Nat.eqb_eq in C. subst cols.
      etransitivity; [apply (filled_app_one [] (drows m1) m1); [reflexivity|exact B]|]. cbn [length Nat.add].
      rewrite loop_alone by apply filled_le. destruct (div_scan _ rows) as [a ys]. reflexivity. }
    cbn [peek complete]. cbv zeta. destruct (dcols m =? 0) eqn:D.
    - cbn [peek poke complete]. apply (G (mkDiv (ddist m) (dvalue m) cols (repeat (repeat big cols) (length (drows m))))).
    - apply (G m).
  Qed.
End Alone.

(** ** Threads that share an object: what every access keeps
    [R w w'] relates the object before and after an access of any thread; [p] is what a thread
    knows of the object and others cannot spoil; [Q y] is what it knows when it returns y. *)
Section Rely.
  Context {W C Y : Type}.
  Variable code_of : C -> code W Y.
  Variable program : nat -> list (nat * C).
  Variable st : nat -> W.
  Variable o : nat.
  Variable R : W -> W -> Prop.
  Hypothesis Rrefl : forall w, R w w.
  Hypothesis Rtrans : forall a b c, R a b -> R b c -> R a c.
  Variable Q : C -> Y -> W -> Prop.
  Definition stable (p : W -> Prop) : Prop := forall w w', p w -> R w w' -> p w'.
  Hypothesis Qstable : forall a y, stable (Q a y).
  Fixpoint keeps (a : C) (p : W -> Prop) (c : code W Y) : Prop :=
    match c with
    | Ret y => forall w, p w -> Q a y w
    | Act f k => forall w, p w -> R w (f w) /\ exists p', stable p' /\ p' (f w) /\ keeps a p' (k w)
    end.
  Hypothesis calls : forall j a, In (o, a) (program j) -> keeps a (R (st o)) (code_of a).

  Definition done (w : W) (p : nat * C) (y : Y) : Prop := fst p = o -> Q (snd p) y w.
  Definition thread_ok (w : W) (prog : list (nat * C)) (t : thread W C Y) : Prop := exists made,
    Forall2 (done w) made (results t) /\
    match now t with
    | None => prog = made ++ todo t
    | Some (o', c) => exists a, prog = made ++ (o', a) :: todo t /\ (o' = o -> exists p, stable p /\ p w /\ keeps a p c)
    end.
  Lemma thread_ok_later w w' prog t : R w w' -> thread_ok w prog t -> thread_ok w' prog t.
  Proof.
    intros H (made & F & N). exists made. split.
    - clear N. induction F as [|x y l l' D F IH]; constructor; [|exact IH]. intros E. apply (Qstable (snd x) y w); [exact (D E)|exact H].
    - destruct (now t) as [[o' c]|]; [|exact N]. destruct N as (a & E & K). exists a. split; [exact E|]. intros Eo. destruct (K Eo) as (p & S & P & K').
      exists p. split; [exact S|]. split; [exact (S w w' P H)|exact K'].
  Qed.
  Lemma shared_kept c : steps code_of (start st program) c ->
    R (st o) (store c o) /\ forall i, thread_ok (store c o) (program i) (threads c i).
  Proof.
    induction 1 as [|j c1 c2 _ [IR IT] S].
    - split; [apply Rrefl|]. intros i. exists []. cbn. split; [constructor|reflexivity].
    - assert (T := IT j). destruct S as [o' a t r E|o' f k t r E|o' y t r E]; rewrite E in T; destruct T as (made & F & N); cbn [results now todo store threads] in *.
      + split; [exact IR|]. intros i. destruct (Nat.eq_dec i j) as [D|D]; [subst i; rewrite upd_same|rewrite upd_other by exact D; apply IT].
        exists made. cbn [results now todo]. split; [exact F|]. exists a. split; [exact N|]. intros Eo. subst o'.
        exists (R (st o)). split; [intros w w' H1 H2; exact (Rtrans _ _ _ H1 H2)|]. split; [exact IR|]. apply (calls j). rewrite N. apply in_app_iff. right. left. reflexivity.
      + destruct N as (a & N & K). destruct (Nat.eq_dec o' o) as [Eo|Eo].
        * subst o'. rewrite upd_same. destruct (K eq_refl) as (p & S & P & K'). cbn [keeps] in K'. destruct (K' (store c1 o) P) as (H & p' & S' & P' & K2).
          split; [exact (Rtrans _ _ _ IR H)|]. intros i. destruct (Nat.eq_dec i j) as [D|D].
          -- subst i. rewrite upd_same. apply (thread_ok_later (f (store c1 o))); [apply Rrefl|].
             exists made. cbn [results now todo]. split.
             ++ clear - F H Qstable. induction F as [|x y l l' D F IH]; constructor; [|exact IH]. intros E. apply (Qstable (snd x) y (store c1 o)); [exact (D E)|exact H].
             ++ exists a. split; [exact N|]. intros _. exists p'. auto.
          -- rewrite upd_other by exact D. apply (thread_ok_later (store c1 o)); [exact H|apply IT].
        * rewrite upd_other by (intros X; apply Eo; symmetry; exact X). split; [exact IR|]. intros i. destruct (Nat.eq_dec i j) as [D|D]; [subst i; rewrite upd_same|rewrite upd_other by exact D; apply IT].
          exists made. cbn [results now todo]. split; [exact F|]. exists a. split; [exact N|]. intros X. contradiction.
      + destruct N as (a & N & K). split; [exact IR|]. intros i. destruct (Nat.eq_dec i j) as [D|D]; [subst i; rewrite upd_same|rewrite upd_other by exact D; apply IT].
        exists (made ++ [(o', a)]). cbn [results now todo]. split.
        * apply Forall2_app; [exact F|]. constructor; [|constructor]. intros Eo. cbn [fst snd] in *. destruct (K Eo) as (p & S & P & K'). apply K'. exact P.
        * rewrite <- app_assoc. exact N.
  Qed.
End Rely.
Lemma finished_results {W C Y} (code_of : C -> code W Y) program st o (R : W -> W -> Prop) (Q : C -> Y -> W -> Prop) c i :
  (forall w, R w w) -> (forall a b c, R a b -> R b c -> R a c) -> (forall a y, stable R (Q a y)) ->
  (forall j a, In (o, a) (program j) -> keeps R Q a (R (st o)) (code_of a)) ->
  steps code_of (start st program) c -> finished (threads c i) ->
  Forall2 (fun p y => fst p = o -> Q (snd p) y (store c o)) (program i) (results (threads c i)).
Proof.
  intros H1 H2 H3 H4 S [F1 F2]. destruct (shared_kept code_of program st o R H1 H2 Q H3 H4 c S) as [_ T].
  destruct (T i) as (made & F & N). rewrite F2, F1, app_nil_r in N. rewrite N. exact F.
Qed.

(** ** Specification *)
Section Spec.
  Context {O : OArith}.
  Variable big : O.
  Variable isclose : O -> O -> bool.
  Variable program : nat -> list (nat * xarr O).
  Variable o : nat.
  Variable m0 : diversity O.                      (* the model before the threads start *)
  (** some thread fits such an array to the model *)
  Definition offered (cols : nat) (rows : list (list O)) : Prop :=
    exists j, In (o, X2 cols rows) (program j) /\ rows <> [] /\ cols <> 0.
  (** rows a model may hold: those it held, unfilled ones, rows of some fit (a fit of one
      column may find a wider array) *)
  Definition known (r : list O) : Prop :=
    In r (drows m0) \/ exists cols rows, offered cols rows /\
      (r = repeat big cols \/ In r rows \/ (cols = 1 /\ exists x n, In x rows /\ r = repeat (hd zero x) n)).
  Definition refused (x : xarr O) : Prop := match x with XRank _ => True | X2 cols rows => rows = [] \/ cols = 0 end.
  (** what a call may answer *)
  Definition answer (x : xarr O) (y : res (list (ext O))) : Prop :=
    match y with
    | Ok l => exists cols rows, x = X2 cols rows /\ length l = length rows
    | Err e => e = ValueError /\
        (refused x \/ exists cols rows, x = X2 cols rows /\
           ((dcols m0 <> 0 /\ dcols m0 <> cols) \/ exists cols' rows', offered cols' rows' /\ cols' <> cols))
    end.
  (** rows before the first unfilled one *)
  Definition samples_held (m : diversity O) (n : nat) : Prop :=
    n <= length (drows m) /\ forall k, k < n -> isclose (hd zero (nth k (drows m) [])) big = false.
End Spec.

Lemma set_row_In {A} k (r : A) s a : In a (set_row k r s) -> a = r \/ In a s.
Proof.
  revert k. induction s as [|b s IH]; intros [|k]; cbn; intros H; auto.
  - destruct H as [H|H]; auto.
  - destruct H as [H|H]; auto. destruct (IH k H); auto.
Qed.

Section Shared.
  Context {O : OArith}.
  Variable big : O.
  Variable isclose : O -> O -> bool.
  Variable program : nat -> list (nat * xarr O).
  Variable o : nat.
  Variable m0 : diversity O.
  Hypothesis some_rows : drows m0 <> [].
  Let Known := known big program o m0.
  Let Offered := offered program o.
  Definition R1 (w w' : diversity O) : Prop :=
    length (drows w') = length (drows w) /\ ddist w' = ddist w /\ (dcols w <> 0 -> dcols w' <> 0) /\
    (dcols w' = dcols w \/ exists rows, Offered (dcols w') rows) /\
    (Forall Known (drows w) -> Forall Known (drows w')).
  Lemma R1_refl w : R1 w w.
  Proof. unfold R1. auto 10. Qed.
  Lemma R1_trans a b c : R1 a b -> R1 b c -> R1 a c.
  Proof.
    intros (A1 & A2 & A3 & A4 & A5) (B1 & B2 & B3 & B4 & B5). unfold R1. split; [congruence|]. split; [congruence|]. split; [auto|]. split; [|auto].
    destruct B4 as [B4|B4]; [|auto]. rewrite B4. exact A4.
  Qed.
  Let Q1 (x : xarr O) (y : res (list (ext O))) (_ : diversity O) : Prop := answer program o m0 x y.
  Lemma Q1_stable a y : stable R1 (Q1 a y).
  Proof. intros w w' H _. exact H. Qed.
  Definition P0 (w : diversity O) : Prop := R1 m0 w.
  Definition P1 (w : diversity O) : Prop := R1 m0 w /\ dcols w <> 0.
  Lemma P0_stable : stable R1 P0.
  Proof. intros w w' H1 H2. exact (R1_trans _ _ _ H1 H2). Qed.
  Lemma P1_stable : stable R1 P1.
  Proof. intros w w' [H1 H3] H2. split; [exact (R1_trans _ _ _ H1 H2)|apply H2; exact H3]. Qed.
  Lemma keeps_peek a p k : stable R1 p -> (forall w, p w -> keeps R1 Q1 a p (k w)) -> keeps R1 Q1 a p (peek k).
  Proof. intros S H w P. split; [apply R1_refl|]. exists p. auto. Qed.

  Section Call.
    Variables (cols : nat) (rows : list (list O)).
    Hypothesis mine : Offered cols rows.
    Let a : xarr O := X2 cols rows.
    Lemma wrong_width w : P1 w -> dcols w <> cols -> Q1 a (Err ValueError) w.
    Proof.
      intros [(_ & _ & _ & D & _) D0] Hne. split; [reflexivity|]. right. exists cols, rows. split; [reflexivity|].
      destruct D as [D|(rows' & D)]; [left; rewrite <- D; auto|right; exists (dcols w), rows'; auto].
    Qed.
    Lemma put_R1 k x w : In x rows -> R1 w (put cols k x w).
    Proof.
      intros I. unfold put, row_error. destruct (k <? length (drows w)); [|apply R1_refl].
      destruct ((cols =? dcols w) || (cols =? 1))%bool eqn:B; [|apply R1_refl].
      unfold R1. cbn [drows ddist dcols]. rewrite set_row_length. split; [reflexivity|]. split; [reflexivity|]. split; [auto|]. split; [auto|].
      rewrite !Forall_forall. intros F r Hr. apply set_row_In in Hr. destruct Hr as [Hr|Hr]; [|auto]. subst r. right. exists cols, rows. split; [exact mine|]. right.
      unfold row_for. destruct (cols =? dcols w); [left; exact I|]. right. apply Nat.eqb_eq in B. split; [exact B|]. exists x, (dcols w). auto.
    Qed.
    Lemma keeps_put kk x (k : code (diversity O) (res (list (ext O)))) :
      In x rows -> (forall w, P1 w -> kk w < length (drows m0)) -> keeps R1 Q1 a P1 k ->
      keeps R1 Q1 a P1 (Act (fun m => put cols (kk m) x m) (fun m => match row_error cols (kk m) m with Some e => Ret (Err e) | None => k end)).
    Proof.
      intros I Hk K w P. assert (R := put_R1 (kk w) x w I). split; [exact R|].
      exists P1. split; [exact P1_stable|]. split; [exact (P1_stable _ _ P R)|].
      unfold row_error. assert (L : (kk w <? length (drows w)) = true). { apply Nat.ltb_lt. destruct P as [(L & P1') P2]. rewrite L. apply Hk. split; [split; assumption|exact P2]. }
      rewrite L. destruct ((cols =? dcols w) || (cols =? 1))%bool eqn:B; [exact K|]. cbn [keeps]. intros w' _. apply orb_false_iff in B. destruct B as [B _]. apply Nat.eqb_neq in B.
      apply (wrong_width w P). auto.
    Qed.
    Lemma keeps_search cc x k : cc <= length (drows m0) -> forall kks, (forall kk, In kk kks -> kk < cc) -> forall v j,
      match j with Some n => n < length (drows m0) | None => True end ->
      (forall v j, match j with Some n => n < length (drows m0) | None => True end -> keeps R1 Q1 a P1 (k v j)) ->
      keeps R1 Q1 a P1 (search_code cols cc x kks v j k).
    Proof.
      intros C. induction kks as [|kk t IH]; intros H v j J K; [apply K; exact J|]. cbn [search_code]. apply keeps_peek; [exact P1_stable|]. intros w P.
      assert (L : length (drows w) = length (drows m0)) by apply P. assert (Hk := H kk (or_introl eq_refl)).
      unfold row_error. replace (kk <? length (drows w)) with true by (symmetry; apply Nat.ltb_lt; lia).
      destruct ((cols =? dcols w) || (cols =? 1))%bool eqn:B.
      - replace (length (drows w) <? cc) with false by (symmetry; apply Nat.ltb_ge; lia). cbv zeta.
        destruct (above _ v); apply IH; auto; try (intros; apply H; right; assumption). lia.
      - cbn [keeps]. intros w' _. apply orb_false_iff in B. destruct B as [B _]. apply Nat.eqb_neq in B. apply (wrong_width w P). auto.
    Qed.
    Lemma keeps_loop : forall rs cc y, incl rs rows -> cc <= length (drows m0) -> length y + length rs = length rows ->
      keeps R1 Q1 a P1 (fit_loop cols cc rs y).
    Proof.
      induction rs as [|x r IH]; intros cc y Hi C L.
      - cbn [fit_loop keeps]. intros w _. exists cols, rows. split; [reflexivity|]. cbn in L. lia.
      - cbn [fit_loop]. cbv zeta.
        assert (Rep : forall cc, cc <= length (drows m0) -> keeps R1 Q1 a P1 (peek (fun m => fit_loop cols cc r (y ++ [dvalue m])))).
        { intros cc' C'. apply keeps_peek; [exact P1_stable|]. intros w _. apply IH; [intros z Hz; apply Hi; right; exact Hz|exact C'|].
          rewrite app_length. cbn [length] in *. lia. }
        assert (I : In x rows) by (apply Hi; left; reflexivity).
        apply keeps_peek; [exact P1_stable|]. intros w P. assert (Lw : length (drows w) = length (drows m0)) by apply P.
        destruct (cc <? length (drows w)) eqn:B.
        + apply Nat.ltb_lt in B. apply (keeps_put (fun _ => cc)); [exact I|intros; lia|apply Rep; lia].
        + apply keeps_peek; [exact P1_stable|]. intros w1 _. apply keeps_search; [exact C|intros kk Hk; apply in_seq in Hk; lia|exact Logic.I|].
          intros v j J. apply keeps_peek; [exact P1_stable|]. intros w2 _. destruct (above v (dvalue w2)); [|apply Rep; exact C].
          cbn [keeps poke]. intros w3 P3. assert (R : R1 w3 (mkDiv (ddist w3) v (dcols w3) (drows w3))) by (unfold R1; cbn; auto 10).
          split; [exact R|]. exists P1. split; [exact P1_stable|]. split; [exact (P1_stable _ _ P3 R)|].
          apply keeps_put; [exact I| |apply Rep; exact C]. intros w4 P4. assert (L4 : length (drows w4) = length (drows m0)) by apply P4.
          destruct j as [n|]; [exact J|]. rewrite L4. destruct (drows m0); [contradiction|cbn; lia].
    Qed.
    Lemma keeps_count k : (forall cc, cc <= length (drows m0) -> keeps R1 Q1 a P1 (k cc)) -> forall n ii, n + ii <= length (drows m0) ->
      keeps R1 Q1 a P1 (count_code big isclose n ii k).
    Proof.
      intros K. induction n as [|n IH]; intros ii H; [apply K; lia|]. cbn [count_code]. apply keeps_peek; [exact P1_stable|]. intros w P.
      assert (L : length (drows w) = length (drows m0)) by apply P. destruct (nth_error (drows w) ii) as [r|] eqn:E; [|apply nth_error_None in E; lia].
      destruct P as [_ P]. apply Nat.eqb_neq in P. rewrite P. destruct (isclose _ _); [apply K; lia|apply IH; lia].
    Qed.
  End Call.
  Lemma fit_keeps j x : In (o, x) (program j) -> keeps R1 Q1 x (R1 m0) (fit_code big isclose x).
  Proof.
    intros I. destruct x as [cols rows|n]; [|intros w _; split; [reflexivity|left; exact Logic.I]]. cbn [fit_code].
    destruct ((length rows =? 0) || (cols =? 0))%bool eqn:B.
    - intros w _. split; [reflexivity|]. left. cbn. apply orb_true_iff in B. destruct B as [B|B]; apply Nat.eqb_eq in B; [left; destruct rows; [reflexivity|discriminate]|right; exact B].
    - apply orb_false_iff in B. destruct B as [B1 B2]. apply Nat.eqb_neq in B1. apply Nat.eqb_neq in B2.
      assert (Me : Offered cols rows). { exists j. split; [exact I|]. split; [intros E; subst rows; apply B1; reflexivity|exact B2]. }
      assert (Rest : keeps R1 Q1 (X2 cols rows) P1 (peek (fun m : diversity O => if negb (cols =? dcols m)%nat then Ret (Err ValueError)
                 else peek (fun m => count_code big isclose (length (drows m)) 0 (fun cc => fit_loop cols cc rows []))))).
      { apply keeps_peek; [exact P1_stable|]. intros w P. destruct (cols =? dcols w) eqn:E; cbn [negb].
        - apply keeps_peek; [exact P1_stable|]. intros w1 [(L & _) _]. apply keeps_count; [|lia]. intros cc C. apply keeps_loop; auto. apply incl_refl.
        - intros w1 _. apply Nat.eqb_neq in E. apply (wrong_width cols rows w P). auto. }
      cbv zeta. intros w P. split; [apply R1_refl|]. destruct (dcols w =? 0) eqn:D.
      + exists P0. split; [exact P0_stable|]. split; [exact P|]. apply keeps_peek; [exact P0_stable|]. intros w1 P'. assert (L1 := proj1 P').
        cbn [keeps poke]. intros w2 P2. assert (L2 := proj1 P2).
        assert (R : R1 w2 (mkDiv (ddist w2) (dvalue w2) cols (repeat (repeat big cols) (length (drows w1))))).
        { unfold R1. cbn [drows ddist dcols]. rewrite repeat_length. split; [congruence|]. split; [reflexivity|]. split; [auto|]. split; [right; exists rows; exact Me|].
          intros _. apply Forall_forall. intros r Hr. apply repeat_spec in Hr. subst r. right. exists cols, rows. auto. }
        split; [exact R|]. exists P1. split; [exact P1_stable|]. split; [|exact Rest]. split; [exact (P0_stable _ _ P2 R)|exact B2].
      + exists P1. split; [exact P1_stable|]. split; [|exact Rest]. split; [exact P|apply Nat.eqb_neq; exact D].
  Qed.
End Shared.

Section Count.
  Context {O : OArith}.
  Variable big : O.
  Variable isclose : O -> O -> bool.
  Variable program : nat -> list (nat * xarr O).
  Variable o : nat.
  Variable m0 : diversity O.
  Let fill (m : diversity O) : nat := filled big isclose (drows m).
  Hypothesis started : dcols m0 <> 0.
  Hypothesis clean : forall j rows x, In (o, X2 (dcols m0) rows) (program j) -> In x rows -> isclose (hd zero x) big = false.
  Definition R2 (w w' : diversity O) : Prop :=
    length (drows w') = length (drows w) /\ dcols w' = dcols w /\ fill w <= fill w'.
  Lemma R2_refl w : R2 w w.
  Proof. unfold R2. auto. Qed.
  Lemma R2_trans a b c : R2 a b -> R2 b c -> R2 a c.
  Proof. intros (A1 & A2 & A3) (B1 & B2 & B3). unfold R2. repeat split; try congruence. lia. Qed.
  Definition Q2 (x : xarr O) (y : res (list (ext O))) (w : diversity O) : Prop :=
    match y with
    | Ok _ => exists cols rows, x = X2 cols rows /\ Nat.min (length (drows m0)) (fill m0 + length rows) <= fill w
    | Err _ => refused x \/ exists cols rows, x = X2 cols rows /\ cols <> dcols m0
    end.
  Lemma Q2_stable a y : stable R2 (Q2 a y).
  Proof.
    intros w w' H (_ & _ & R). unfold Q2 in *. destruct y as [l|e]; [|exact H]. destruct H as (cols & rows & E & H). exists cols, rows. split; [exact E|lia].
  Qed.
  Definition P2 (n : nat) (w : diversity O) : Prop := R2 m0 w /\ n <= fill w.
  Lemma P2_stable n : stable R2 (P2 n).
  Proof. intros w w' [H1 H3] H2. split; [exact (R2_trans _ _ _ H1 H2)|]. destruct H2 as (_ & _ & H2). lia. Qed.
  Lemma keeps2_peek a n k : (forall w, P2 n w -> keeps R2 Q2 a (P2 n) (k w)) -> keeps R2 Q2 a (P2 n) (peek k).
  Proof. intros H w P. split; [apply R2_refl|]. exists (P2 n). split; [apply P2_stable|]. auto. Qed.

  Lemma filled_set k x : forall s : list (list O), isclose (hd zero x) big = false ->
    filled big isclose s <= filled big isclose (set_row k x s) /\
    (k <= filled big isclose s -> k < length s -> S k <= filled big isclose (set_row k x s)).
  Proof.
    revert k. intros k s X. revert k. induction s as [|r s IH]; intros [|k]; cbn [set_row filled length].
    - split; intros; lia.
    - split; intros; lia.
    - rewrite X. split; [destruct (isclose (hd zero r) big); lia|intros; lia].
    - destruct (IH k) as [I1 I2]. destruct (isclose (hd zero r) big); split; intros; try lia.
  Qed.

  Section Call.
    Variables (rows : list (list O)) (j0 : nat).
    Hypothesis mine : In (o, X2 (dcols m0) rows) (program j0).
    Let a : xarr O := X2 (dcols m0) rows.
    Lemma keeps2_put kk x n n' (k : code (diversity O) (res (list (ext O)))) :
      In x rows -> (forall w, P2 n w -> kk w < length (drows m0)) ->
      (forall w, P2 n w -> n' <= n \/ n' <= S n /\ kk w = n) -> keeps R2 Q2 a (P2 n') k ->
      keeps R2 Q2 a (P2 n) (Act (fun m => put (dcols m0) (kk m) x m) (fun m => match row_error (dcols m0) (kk m) m with Some e => Ret (Err e) | None => k end)).
    Proof.
      intros I Hk Hn K w P. assert (X := clean j0 rows x mine I). destruct P as [(L & D & F) N]. assert (P : P2 n w) by (split; [split; auto|exact N]).
      unfold put, row_error, row_for. rewrite D, Nat.eqb_refl. cbn [orb]. specialize (Hk w P).
      replace (kk w <? length (drows w)) with true by (symmetry; apply Nat.ltb_lt; lia).
      destruct (filled_set (kk w) x (drows w) X) as [F1 F2].
      assert (R : R2 w (mkDiv (ddist w) (dvalue w) (dcols m0) (set_row (kk w) x (drows w)))).
      { unfold R2. cbn [drows dcols]. unfold fill. cbn [drows]. rewrite set_row_length. auto. }
      split; [exact R|]. exists (P2 n'). split; [apply P2_stable|]. split; [|exact K]. split; [exact (R2_trans _ _ _ (proj1 P) R)|].
      unfold fill in *. cbn [drows] in *. destruct (Hn w P) as [Hn'|[Hn' Ek]]; [lia|]. rewrite Ek in *. specialize (F2 N ltac:(lia)). lia.
    Qed.
    Lemma keeps2_search n cc x k : cc <= length (drows m0) -> forall kks, (forall kk, In kk kks -> kk < cc) -> forall v j,
      match j with Some n => n < length (drows m0) | None => True end ->
      (forall v j, match j with Some n => n < length (drows m0) | None => True end -> keeps R2 Q2 a (P2 n) (k v j)) ->
      keeps R2 Q2 a (P2 n) (search_code (dcols m0) cc x kks v j k).
    Proof.
      intros C. induction kks as [|kk t IH]; intros H v j J K; [apply K; exact J|]. cbn [search_code]. apply keeps2_peek. intros w P.
      assert (L : length (drows w) = length (drows m0)) by apply P. assert (D : dcols w = dcols m0) by apply P. assert (Hk := H kk (or_introl eq_refl)).
      unfold row_error. replace (kk <? length (drows w)) with true by (symmetry; apply Nat.ltb_lt; lia). rewrite D, Nat.eqb_refl. cbn [orb].
      replace (length (drows w) <? cc) with false by (symmetry; apply Nat.ltb_ge; lia). cbv zeta.
      destruct (above _ v); apply IH; auto; try (intros; apply H; right; assumption). lia.
    Qed.
    Lemma keeps2_loop : drows m0 <> [] -> forall rs cc y, incl rs rows -> cc <= length (drows m0) -> length rs <= length rows ->
      Nat.min (length (drows m0)) (fill m0 + (length rows - length rs)) <= cc ->
      keeps R2 Q2 a (P2 cc) (fit_loop (dcols m0) cc rs y).
    Proof.
      intros NE. induction rs as [|x r IH]; intros cc y Hi C L M.
      - cbn [fit_loop keeps]. intros w [_ P]. exists (dcols m0), rows. split; [reflexivity|]. cbn [length] in M. rewrite Nat.sub_0_r in M. lia.
      - cbn [fit_loop]. cbv zeta. cbn [length] in L, M.
        assert (Rep : forall cc, cc <= length (drows m0) -> Nat.min (length (drows m0)) (fill m0 + (length rows - length r)) <= cc ->
                 keeps R2 Q2 a (P2 cc) (peek (fun m => fit_loop (dcols m0) cc r (y ++ [dvalue m])))).
        { intros cc' C' M'. apply keeps2_peek. intros w _. apply IH; auto; [intros z Hz; apply Hi; right; exact Hz|lia]. }
        assert (I : In x rows) by (apply Hi; left; reflexivity).
        apply keeps2_peek. intros w P. assert (Lw : length (drows w) = length (drows m0)) by apply P.
        destruct (cc <? length (drows w)) eqn:B.
        + apply Nat.ltb_lt in B. apply (keeps2_put (fun _ => cc) x cc (S cc)); [exact I|intros; lia|intros; right; auto|apply Rep; lia].
        + apply Nat.ltb_ge in B. assert (E : cc = length (drows m0)) by lia. apply keeps2_peek. intros w1 _. apply keeps2_search; [exact C|intros kk Hk; apply in_seq in Hk; lia|exact Logic.I|].
          assert (Rep' := Rep cc C ltac:(lia)).
          intros v j J. apply keeps2_peek. intros w2 _. destruct (above v (dvalue w2)); [|exact Rep'].
          cbn [keeps poke]. intros w3 P3. assert (R : R2 w3 (mkDiv (ddist w3) v (dcols w3) (drows w3))) by (unfold R2; cbn; auto 10).
          split; [exact R|]. exists (P2 cc). split; [apply P2_stable|]. split; [exact (P2_stable _ _ _ P3 R)|].
          apply (keeps2_put _ x cc cc); [exact I| |intros; left; lia|exact Rep']. intros w4 P4. assert (L4 : length (drows w4) = length (drows m0)) by apply P4.
          destruct j as [n|]; [exact J|]. rewrite L4. destruct (drows m0); [contradiction|cbn; lia].
    Qed.
    Lemma filled_nth (s : list (list O)) ii r : nth_error s ii = Some r -> ii <= filled big isclose s ->
      if isclose (hd zero r) big then filled big isclose s = ii else S ii <= filled big isclose s.
    Proof.
      revert ii. induction s as [|b s IH]; intros [|ii] E; cbn [nth_error] in E; try discriminate.
      - injection E as <-. cbn [filled]. destruct (isclose (hd zero b) big); intros; lia.
      - cbn [filled]. destruct (isclose (hd zero b) big); intros H; [lia|]. specialize (IH ii E ltac:(lia)). destruct (isclose (hd zero r) big); lia.
    Qed.
    Lemma keeps2_weaken n n' c : n' <= n -> keeps R2 Q2 a (P2 n') c -> keeps R2 Q2 a (P2 n) c.
    Proof.
      intros H. assert (G : forall w, P2 n w -> P2 n' w) by (intros w [H1 H2]; split; [exact H1|lia]).
      destruct c as [y|f k]; cbn [keeps]; intros K w P; apply K; auto.
    Qed.
    Lemma keeps2_count k : (forall cc, cc <= length (drows m0) -> fill m0 <= cc -> keeps R2 Q2 a (P2 cc) (k cc)) -> forall n ii, n + ii = length (drows m0) ->
      keeps R2 Q2 a (P2 ii) (count_code big isclose n ii k).
    Proof.
      intros K. induction n as [|n IH]; intros ii H; [apply K; [lia|]; cbn in H; rewrite H; apply filled_le|]. cbn [count_code].
      intros w P. split; [apply R2_refl|]. destruct P as [(L & D & F) N].
      destruct (nth_error (drows w) ii) as [r|] eqn:E; [|apply nth_error_None in E; lia].
      assert (D0 := started). rewrite <- D in D0. apply Nat.eqb_neq in D0. rewrite D0. assert (Fn := filled_nth _ _ _ E N). destruct (isclose (hd zero r) big).
      - exists (P2 ii). split; [apply P2_stable|]. split; [split; [split; auto|exact N]|]. apply K; [lia|]. unfold fill in *. lia.
      - exists (P2 (S ii)). split; [apply P2_stable|]. split; [split; [split; auto|exact Fn]|]. apply IH. lia.
    Qed.
  End Call.
  Lemma fit_keeps2 j x : drows m0 <> [] -> In (o, x) (program j) -> keeps R2 Q2 x (R2 m0) (fit_code big isclose x).
  Proof.
    intros NE I. destruct x as [cols rows|n]; [|intros w _; left; exact Logic.I]. cbn [fit_code].
    destruct ((length rows =? 0) || (cols =? 0))%bool eqn:B.
    - intros w _. left. cbn. apply orb_true_iff in B. destruct B as [B|B]; apply Nat.eqb_eq in B; [left; destruct rows; [reflexivity|discriminate]|right; exact B].
    - cbv zeta. intros w P. split; [apply R2_refl|]. assert (D : dcols w = dcols m0) by apply P. assert (D0 := started). rewrite <- D in D0. apply Nat.eqb_neq in D0. rewrite D0.
      exists (P2 0). split; [apply P2_stable|]. split; [split; [exact P|lia]|]. apply keeps2_peek. intros w1 [(L1 & D1 & F1) _]. rewrite D1.
      destruct (cols =? dcols m0) eqn:E; cbn [negb].
      + apply Nat.eqb_eq in E. subst cols. apply keeps2_peek. intros w2 [(L2 & _) _]. apply (keeps2_count rows); [|lia]. intros cc C F. apply (keeps2_loop rows j); auto.
        * apply incl_refl.
        * lia.
      + intros w2 _. right. exists cols, rows. split; [reflexivity|]. apply Nat.eqb_neq. exact E.
  Qed.
  Lemma held_fill m n : samples_held big isclose m n <-> n <= fill m.
  Proof.
    unfold samples_held, fill. revert n. generalize (drows m) as s. clear. induction s as [|r s IH]; intros n; cbn [length filled].
    - split; [intros [H _]; exact H|]. intros H. split; [exact H|]. intros k Hk. lia.
    - split.
      + intros [H1 H2]. destruct n as [|n]; [lia|]. assert (H0 := H2 0 ltac:(lia)). cbn [nth] in H0. rewrite H0. apply le_n_S. apply IH. split; [lia|].
        intros k Hk. apply (H2 (S k)). lia.
      + intros H. destruct (isclose (hd zero r) big) eqn:E.
        * split; [lia|]. intros k Hk. lia.
        * destruct n as [|n]; [split; [lia|intros; lia]|]. apply le_S_n in H. apply IH in H. destruct H as [H1 H2]. split; [lia|].
          intros [|k] Hk; [exact E|]. apply H2. lia.
  Qed.
End Count.

(** ** C195 *)

(** C195.  A thread whose models no other thread fits gets, under any schedule, exactly the
    answers of its fits made one after the other, and leaves its models as they would. *)
Theorem C195_model_of_one_thread (O : OArith) (big : O) isclose (st : nat -> diversity O) (program : nat -> list (nat * xarr O)) i c :
  (forall a : O, oltb a a = false) ->
  (forall o j, uses (program i) o -> j <> i -> ~ uses (program j) o) ->
  steps (fit_code big isclose) (start st program) c -> finished (threads c i) ->
  results (threads c i) = snd (serial (div_fit big isclose) st (program i)) /\
  forall o, uses (program i) o -> store c o = fst (serial (div_fit big isclose) st (program i)) o.
Proof.
  intros Irr H S F. apply (thread_results (fit_code big isclose) (div_fit big isclose) (fun x m => fit_code_ok big isclose Irr x m) program st i); auto.
Qed.
Print Assumptions C195_model_of_one_thread.

(** C195.  Whatever threads share a model, and in whatever order they run: its number of rows
    and its distance stay; every row is one it held, an unfilled one or a sample of some fit;
    each answer has one value per sample or is a ValueError that the call's own array, or a fit
    of another width, accounts for. *)
Theorem C195_shared_rows (O : OArith) (big : O) isclose (st : nat -> diversity O) (program : nat -> list (nat * xarr O)) o c :
  drows (st o) <> [] -> steps (fit_code big isclose) (start st program) c ->
  length (drows (store c o)) = length (drows (st o)) /\ ddist (store c o) = ddist (st o) /\
  Forall (known big program o (st o)) (drows (store c o)) /\
  forall i, finished (threads c i) ->
    Forall2 (fun p y => fst p = o -> answer program o (st o) (snd p) y) (program i) (results (threads c i)).
Proof.
  intros NE S. set (R := R1 big program o (st o)).
  assert (Calls : forall j a, In (o, a) (program j) -> keeps R (fun x y _ => answer program o (st o) x y) a (R (st o)) (fit_code big isclose a)).
  { intros j a I. exact (fit_keeps big isclose program o (st o) NE j a I). }
  destruct (shared_kept (fit_code big isclose) program st o R (R1_refl _ _ _ _) (R1_trans _ _ _ _) _ (Q1_stable _ _ _ _) Calls c S) as [(L & D & _ & _ & K) _].
  split; [exact L|]. split; [exact D|]. split; [apply K; apply Forall_forall; intros r Hr; left; exact Hr|].
  intros i F. exact (finished_results (fit_code big isclose) program st o R _ c i (R1_refl _ _ _ _) (R1_trans _ _ _ _) (Q1_stable _ _ _ _) Calls S F).
Qed.
Print Assumptions C195_shared_rows.

(** C195.  On a model that has been fitted before, no thread's fit of the right width fails and
    sharing loses at most the samples of other fits: once a fit has returned, the model holds
    the samples it held before and as many as the fit had, or is full. *)
Theorem C195_shared_count (O : OArith) (big : O) isclose (st : nat -> diversity O) (program : nat -> list (nat * xarr O)) o c i held :
  drows (st o) <> [] -> dcols (st o) <> 0 ->
  (forall j rows x, In (o, X2 (dcols (st o)) rows) (program j) -> In x rows -> isclose (hd zero x) big = false) ->
  samples_held big isclose (st o) held ->
  steps (fit_code big isclose) (start st program) c ->
  samples_held big isclose (store c o) held /\
  (finished (threads c i) ->
   Forall2 (fun p y => forall rows, p = (o, X2 (dcols (st o)) rows) -> rows <> [] ->
      exists l, y = Ok l /\ samples_held big isclose (store c o) (Nat.min (length (drows (st o))) (held + length rows)))
     (program i) (results (threads c i))).
Proof.
  intros NE D0 Clean Held S. set (R := R2 big isclose). set (Q := Q2 big isclose (st o)).
  assert (Calls : forall j a, In (o, a) (program j) -> keeps R Q a (R (st o)) (fit_code big isclose a)).
  { intros j a I. exact (fit_keeps2 big isclose program o (st o) D0 Clean j a NE I). }
  assert (T : forall a b c, R a b -> R b c -> R a c) by (intros a b e; eapply R2_trans; eassumption).
  assert (U : forall a y, stable R (Q a y)) by (intros a y; eapply Q2_stable; eassumption).
  destruct (shared_kept (fit_code big isclose) program st o R (R2_refl _ _) T Q U Calls c S) as [(L & D & K) _].
  apply held_fill in Held. split; [apply held_fill; lia|]. intros F.
  assert (G := finished_results (fit_code big isclose) program st o R Q c i (R2_refl _ _) T U Calls S F).
  clear - G Held D0. induction G as [|p y l l' H G IH]; constructor; [|exact IH]. intros rows E NR. subst p. specialize (H eq_refl). cbn [snd] in H. unfold Q, Q2 in H.
  destruct y as [v|e].
  - exists v. split; [reflexivity|]. destruct H as (cols & rows' & E & H). injection E as <- <-. apply held_fill. lia.
  - exfalso. destruct H as [H|(cols & rows' & E & H)]; [cbn in H; destruct H; contradiction|]. injection E as <- <-. apply H. reflexivity.
Qed.
Print Assumptions C195_shared_count.

(** Executions.  One column, Manhattan distance over the rationals. *)
Definition qbig : Qc := q 1000000 1.
Definition qclose (a b : Qc) : bool := Qeq_bool (this a) (this b).
Definition qcode : xarr QO -> code (diversity QO) (res (list (ext QO))) := fit_code (O := QO) qbig qclose.
Definition qfit : diversity QO -> xarr QO -> diversity QO * res (list (ext QO)) := div_fit (O := QO) qbig qclose.
Definition col (l : list Z) : xarr QO := X2 (A := QO) 1 (map (fun n => [q n 1]) l).
Definition qmodel (v : Z) (cols : nat) (l : list (list Z)) : diversity QO :=
  mkDiv (O := QO) (manhattan (O := QO)) (Fin (q v 1)) cols (map (map (fun n => q n 1)) l).
Definition shown (m : diversity QO) : option Q * list (list Q) :=
  (match dvalue m with Fin x => Some (this x) | Inf => None end, map (map this) (drows m)).
Definition rshown (r : res (list (ext QO))) : res (list (option Q)) :=
  rmap (map (fun e => match e with Fin x => Some (this x) | Inf => None end)) r.
Definition pair_of (a b : xarr QO) (i : nat) : list (nat * xarr QO) := match i with 0 => [(0, a)] | 1 => [(0, b)] | _ => [] end.
Definition big_ : Z := 1000000.

(** Two threads fill an empty but started model of four rows: whatever the order, both fits
    answer and the model holds at least the two samples of one of them. *)
Definition four : diversity QO := qmodel 0 1 [[big_]; [big_]; [big_]; [big_]].
Example C195_example : let program := pair_of (col [1; 2]%Z) (col [5; 7]%Z) in
  let c := schedule qcode (concat (repeat [0; 1] 30)) (start (fun _ => four) program) in
  steps qcode (start (fun _ => four) program) c /\ finished (threads c 0) /\ finished (threads c 1) /\
  samples_held (O := QO) qbig qclose (store c 0) 2 /\
  shown (store c 0) = (Some 0, [[5]; [7]; [1000000]; [1000000]])%Q.
Proof.
  cbv zeta. split; [apply schedule_ok; apply TNil|]. split; [apply finishedb_ok; vm_compute; reflexivity|]. split; [apply finishedb_ok; vm_compute; reflexivity|].
  split; [|vm_compute; reflexivity]. apply held_fill. apply Nat.leb_le. vm_compute. reflexivity.
Qed.

(** C195.  It is false that no sample is lost: two threads that fit one sample each to a model
    with two free rows can leave one sample, where either order of the calls leaves two. *)
Definition two : diversity QO := qmodel 0 1 [[big_]; [big_]].
Theorem C195_lost_sample_refuted : exists c, let program := pair_of (col [1]%Z) (col [5]%Z) in
  steps qcode (start (fun _ => two) program) c /\ finished (threads c 0) /\ finished (threads c 1) /\
  snd (shown (store c 0)) = [[5]; [1000000]]%Q /\
  snd (shown (fst (serial qfit (fun _ => two) (program 0 ++ program 1)) 0)) = [[1]; [5]]%Q /\
  snd (shown (fst (serial qfit (fun _ => two) (program 1 ++ program 0)) 0)) = [[5]; [1]]%Q.
Proof.
  exists (schedule qcode (concat (repeat [0; 1] 30)) (start (fun _ => two) (pair_of (col [1]%Z) (col [5]%Z)))). cbv zeta.
  split; [apply schedule_ok; apply TNil|]. split; [apply finishedb_ok; vm_compute; reflexivity|]. split; [apply finishedb_ok; vm_compute; reflexivity|].
  split; [vm_compute; reflexivity|]. split; vm_compute; reflexivity.
Qed.
Print Assumptions C195_lost_sample_refuted.

(** C195.  The first fits of a new model can leave an unfilled row between two samples: the
    second thread allocates the rows again after the first has written two of its three. *)
Definition fresh3 : diversity QO := qmodel 0 0 [[]; []; []].
Theorem C195_gap_refuted : exists c, let program := pair_of (col [1; 2; 3]%Z) (col [5]%Z) in
  steps qcode (start (fun _ => fresh3) program) c /\ finished (threads c 0) /\ finished (threads c 1) /\
  snd (shown (store c 0)) = [[5]; [1000000]; [3]]%Q /\
  snd (shown (fst (serial qfit (fun _ => fresh3) (program 0 ++ program 1)) 0)) = [[1]; [5]; [3]]%Q /\
  snd (shown (fst (serial qfit (fun _ => fresh3) (program 1 ++ program 0)) 0)) = [[5]; [1]; [3]]%Q.
Proof.
  exists (schedule qcode ([1; 1; 1] ++ repeat 0 13 ++ repeat 1 20 ++ repeat 0 20) (start (fun _ => fresh3) (pair_of (col [1; 2; 3]%Z) (col [5]%Z)))). cbv zeta.
  split; [apply schedule_ok; apply TNil|]. split; [apply finishedb_ok; vm_compute; reflexivity|]. split; [apply finishedb_ok; vm_compute; reflexivity|].
  split; [vm_compute; reflexivity|]. split; vm_compute; reflexivity.
Qed.
Print Assumptions C195_gap_refuted.

(** C195.  The diversity can fall, although a model fitted by one thread only raises it: the
    second thread answers 10 while the first is between lines 163 and 164. *)
Definition full2 : diversity QO := qmodel 1 1 [[0]; [1]]%Z.
Definition five_ten : nat -> list (nat * xarr QO) := pair_of (col [5]%Z) (col [10]%Z).
Theorem C195_diversity_falls_refuted : exists c c',
  steps qcode (start (fun _ => full2) five_ten) c /\ steps qcode c c' /\ finished (threads c' 0) /\ finished (threads c' 1) /\
  map rshown (results (threads c 1)) = [Ok [Some 10]]%Q /\ fst (shown (store c 0)) = Some 10%Q /\
  map rshown (results (threads c' 0)) = [Ok [Some 5]]%Q /\ shown (store c' 0) = (Some 5, [[0]; [5]])%Q /\
  shown (fst (serial qfit (fun _ => full2) (five_ten 0 ++ five_ten 1)) 0) = (Some 10, [[0]; [10]])%Q /\
  shown (fst (serial qfit (fun _ => full2) (five_ten 1 ++ five_ten 0)) 0) = (Some 10, [[0]; [10]])%Q.
Proof.
  set (c := schedule qcode (repeat 0 11 ++ repeat 1 20) (start (fun _ => full2) five_ten)).
  exists c, (schedule qcode (repeat 0 20) c).
  split; [apply schedule_ok; apply TNil|]. split; [apply schedule_ok; apply TNil|].
  split; [apply finishedb_ok; vm_compute; reflexivity|]. split; [apply finishedb_ok; vm_compute; reflexivity|].
  repeat (split; [vm_compute; reflexivity|]). vm_compute. reflexivity.
Qed.
Print Assumptions C195_diversity_falls_refuted.

(** C195.  The diversity can be one that the rows do not have: the two assignments of line 164
    of one thread enclose those of the other. *)
Theorem C195_diversity_wrong_refuted : exists c,
  steps qcode (start (fun _ => full2) five_ten) c /\ finished (threads c 0) /\ finished (threads c 1) /\
  map rshown (results (threads c 0)) = [Ok [Some 10]]%Q /\ map rshown (results (threads c 1)) = [Ok [Some 10]]%Q /\
  shown (store c 0) = (Some 10, [[0]; [5]])%Q.
Proof.
  exists (schedule qcode (repeat 0 11 ++ repeat 1 11 ++ [0] ++ repeat 1 20 ++ repeat 0 20) (start (fun _ => full2) five_ten)).
  split; [apply schedule_ok; apply TNil|]. split; [apply finishedb_ok; vm_compute; reflexivity|]. split; [apply finishedb_ok; vm_compute; reflexivity|].
  repeat (split; [vm_compute; reflexivity|]). vm_compute. reflexivity.
Qed.
Print Assumptions C195_diversity_wrong_refuted.

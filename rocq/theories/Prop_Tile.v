(** C63: A loop over a coordinate of sparse operands that was split visits, tile
    by tile, what the loop before the split visits. *)
From Coq Require Import ZArith List Bool Lia.
From Verif Require Import Outcome Tile TileSpec TileProofs.
Import ListNotations.
Local Open Scope Z_scope.

Definition any (l : list (option Z)) : bool := existsb (fun o => match o with Some _ => true | None => false end) l.
Definition every (l : list (option Z)) : bool := forallb (fun o => match o with Some _ => true | None => false end) l.
Lemma any_somewhere : forall l, any l = true -> somewhere l.
Proof.
  intros l H. apply existsb_exists in H. destruct H as ([x|] & I & E); [|discriminate].
  exists (Some x). split; [exact I|discriminate].
Qed.
Lemma every_everywhere : forall l, every l = true -> everywhere l.
Proof. intros l H o I ->. unfold every in H. rewrite forallb_forall in H. specialize (H None I). discriminate. Qed.

Definition a_row : level := Lev [0; 2; 5; 7; 0] 0 4.
Definition b_row : level := Lev [9; 2; 3; 7; 1] 1 4.
Definition stored_b (n : Z) (k : level) : bool :=
  let r := zrange (l_begin k) (l_end k) in
  (0 <=? l_begin k) && (l_begin k <=? l_end k) && (l_end k <? Z.of_nat (length (l_crd k))) &&
  forallb (fun p => forallb (fun q => negb (p <? q) || (at_ (l_crd k) p <? at_ (l_crd k) q)) r) r &&
  forallb (fun p => (0 <=? at_ (l_crd k) p) && (at_ (l_crd k) p <? n)) r.
Lemma stored_check : forall n k, stored_b n k = true -> stored n k.
Proof.
  intros n k H. unfold stored_b in H. cbv zeta in H. rewrite !andb_true_iff, !forallb_forall in H.
  destruct H as ((((A & B) & C) & D) & E). apply Z.leb_le in A, B. apply Z.ltb_lt in C.
  split; [lia|]. split; [exact C|]. split.
  - intros p q H1 H2 H3. specialize (D p). rewrite forallb_forall in D.
    assert (Ip : In p (zrange (l_begin k) (l_end k))) by (apply zrange_in; lia).
    assert (Iq : In q (zrange (l_begin k) (l_end k))) by (apply zrange_in; lia).
    specialize (D Ip q Iq). destruct (Z.ltb_spec p q); [|lia]. apply Z.ltb_lt in D. exact D.
  - intros p Hp. specialize (E p). rewrite andb_true_iff, Z.leb_le, Z.ltb_lt in E. apply E, zrange_in, Hp.
Qed.
Lemma rows_stored : forall k, In k [a_row; b_row] -> stored 8 k.
Proof. intros k [<-|[<-|[]]]; apply stored_check; reflexivity. Qed.

(** One tile, of any start and size and within any number of splits: exactly
    those of its coordinates that all operands store are visited, in order and with
    the right positions. *)
Theorem C63_tile_product : forall ks n pts cases, (forall k, In k ks -> stored n k) -> product ks pts cases ->
  forall outs g, 0 <= g ->
  tile ks outs g pts cases = Val (visits ks cases (tile_start outs) (tile_start outs + g)).
Proof. exact tile_product. Qed.
Print Assumptions C63_tile_product.

(** All tiles of splits of which each factor divides the one before: as without any split. *)
Theorem C63_product : forall ks n pts cases f fs, (forall k, In k ks -> stored n k) -> product ks pts cases ->
  nested (f :: fs) -> 0 <= n -> tiles ks pts cases n (f :: fs) [] = Val (visits ks cases 0 n).
Proof. exact tiles_product. Qed.
Print Assumptions C63_product.

Example C63_product_example :
  (forall k, In k [a_row; b_row] -> stored 8 k) /\ product [a_row; b_row] [[0; 1]%nat] every /\ nested [4; 2] /\
  tiles [a_row; b_row] [[0; 1]%nat] every 8 [4; 2] [] = Val [(2, [Some 1; Some 1]); (7, [Some 3; Some 3])].
Proof.
  split; [exact rows_stored|]. split; [|split].
  - split; [discriminate|]. split; [reflexivity|exact every_everywhere].
  - repeat split; try lia. exists 2. reflexivity.
  - vm_compute. reflexivity.
Qed.

(** Added operands: the same, if behind the last coordinate of every operand the array
    holds nothing smaller than the end of the tile. *)
Theorem C63_tile_addition : forall ks n m pts cases, (forall k, In k ks -> stored n k) -> addition ks pts cases ->
  (forall k, In k ks -> followed_by m k) ->
  forall outs g, 0 <= g -> tile_start outs + g <= m ->
  tile ks outs g pts cases = Val (visits ks cases (tile_start outs) (tile_start outs + g)).
Proof. exact tile_addition. Qed.
Print Assumptions C63_tile_addition.

Theorem C63_addition : forall ks n pts cases f fs, (forall k, In k ks -> stored n k) -> addition ks pts cases ->
  (forall k, In k ks -> followed_by (tiled_end n f) k) ->
  nested (f :: fs) -> 0 <= n -> tiles ks pts cases n (f :: fs) [] = Val (visits ks cases 0 n).
Proof. exact tiles_addition. Qed.
Print Assumptions C63_addition.

Lemma two_added : forall a b, addition [a; b] [[0; 1]; [0]; [1]]%nat any.
Proof.
  intros a b. split; [|split; [|split; [|exact any_somewhere]]].
  - intros pt [<-|[<-|[<-|[]]]]; (split; [discriminate|]); cbn; intros k H; repeat (destruct H as [<-|H]; [lia|]); destruct H.
  - intros [|[|k]] H; [right; left; reflexivity|right; right; left; reflexivity|cbn in H; lia].
  - intros before pt after k E Hk Np. cbn [length] in Hk.
    assert (K : k = O \/ k = 1%nat) by lia.
    destruct before as [|x [|y [|z before]]]; cbn in E; inversion E; subst.
    + exfalso. apply Np. destruct K as [->| ->]; cbn; auto.
    + destruct K as [->| ->]; [exfalso; apply Np; cbn; auto|]. exists [0; 1]%nat. split; [cbn; auto|]. split; [cbn; auto|].
      intros j [<-|[<-|[]]]; cbn; auto.
    + destruct K as [->| ->]; [|exfalso; apply Np; cbn; auto]. exists [0; 1]%nat. split; [cbn; auto|]. split; [cbn; auto|].
      intros j [<-|[<-|[]]]; cbn; auto.
    + destruct before; discriminate.
Qed.
Definition a_padded : level := Lev [0; 2; 5; 7; 8] 0 4.
Definition b_padded : level := Lev [9; 2; 3; 7; 8] 1 4.
Example C63_addition_example :
  addition [a_padded; b_padded] [[0; 1]; [0]; [1]]%nat any /\
  (forall k, In k [a_padded; b_padded] -> followed_by (tiled_end 8 4) k) /\
  tiles [a_padded; b_padded] [[0; 1]; [0]; [1]]%nat any 8 [4] [] =
    Val [(0, [Some 0; None]); (2, [Some 1; Some 1]); (3, [None; Some 2]); (5, [Some 2; None]); (7, [Some 3; Some 3])].
Proof.
  split; [apply two_added|]. split; [|vm_compute; reflexivity].
  intros k [<-|[<-|[]]]; unfold followed_by; vm_compute; discriminate.
Qed.

(** In a matrix the entry behind a row is the first of the next row.  Then a coordinate
    of a sum is visited again in a tile it does not belong to: row 0 of A is {0}, of
    B {5}, row 1 of A is {0}; with tiles of 4, coordinate 5 is visited twice. *)
Theorem C63_addition_refuted :
  exists a b, stored 8 a /\ stored 8 b /\ addition [a; b] [[0; 1]; [0]; [1]]%nat any /\
    visits [a; b] any 0 8 = [(0, [Some 0; None]); (5, [None; Some 0])] /\
    tiles [a; b] [[0; 1]; [0]; [1]]%nat any 8 [4] [] = Val [(0, [Some 0; None]); (5, [None; Some 0]); (5, [None; Some 0])].
Proof.
  exists (Lev [0; 0] 0 1), (Lev [5; 9] 0 1). split; [apply stored_check; reflexivity|]. split; [apply stored_check; reflexivity|].
  split; [apply two_added|]. split; vm_compute; reflexivity.
Qed.
Print Assumptions C63_addition_refuted.

(** A coordinate array that ends with the segment is read one entry behind its end,
    whatever the operand, the dimension and the factor: the split loop over a vector
    never runs without an access out of bounds. *)
Theorem C63_exact_array_refuted : forall k n f cases, 0 < n -> 0 < f ->
  0 <= l_begin k <= l_end k -> l_end k = Z.of_nat (length (l_crd k)) ->
  (forall p q, l_begin k <= p -> p < q -> q < l_end k -> at_ (l_crd k) p < at_ (l_crd k) q) ->
  (forall p, l_begin k <= p < l_end k -> at_ (l_crd k) p < n) ->
  forall v, tiles [k] [[O]] cases n [f] [] <> Val v.
Proof. exact exact_tiles. Qed.
Print Assumptions C63_exact_array_refuted.
Example C63_exact_array_example : tiles [Lev [1; 6] 0 2] [[O]] any 8 [4] [] = Oob.
Proof. vm_compute. reflexivity. Qed.

(** With the loop over the inner variable outside, coordinates are visited again and
    others not at all. *)
Theorem C63_reordered_refuted :
  exists k, stored 4 k /\ visits [k] any 0 4 = [(0, [Some 0]); (1, [Some 1]); (2, [Some 2]); (3, [Some 3])] /\
    reordered [k] [[O]] any 4 2 = Val [(0, [Some 0]); (1, [Some 1]); (0, [Some 0]); (1, [Some 1]); (2, [Some 2])].
Proof.
  exists (Lev [0; 1; 2; 3; 0] 0 4). split; [apply stored_check; reflexivity|]. split; vm_compute; reflexivity.
Qed.
Print Assumptions C63_reordered_refuted.

(** A second factor that does not divide the first: a coordinate is visited twice. *)
Theorem C63_not_nested_refuted :
  exists k, stored 8 k /\ visits [k] any 0 8 = [(4, [Some 0])] /\
    tiles [k] [[O]] any 8 [4; 3] [] = Val [(4, [Some 0]); (4, [Some 0])].
Proof.
  exists (Lev [4; 0] 0 1). split; [apply stored_check; reflexivity|]. split; vm_compute; reflexivity.
Qed.
Print Assumptions C63_not_nested_refuted.

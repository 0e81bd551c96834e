(** Text._font (gdspy/polygon.py 868-962): the character code and its polygons, in units of a
    ninth of the size.  Transcribed by a script from the source. *)

From Coq Require Import List ZArith.
Import ListNotations.
Open Scope Z_scope.

Definition font : list (Z * list (list (Z * Z))) := [
  (33, [[(2, 2); (3, 2); (3, 3); (2, 3)]; [(2, 4); (3, 4); (3, 5); (3, 6); (3, 7); (3, 8); (3, 9); (2, 9); (2, 8); (2, 7); (2, 6); (2, 5)]]);
  (34, [[(1, 7); (2, 7); (2, 8); (2, 9); (1, 9); (1, 8)]; [(3, 7); (4, 7); (4, 8); (4, 9); (3, 9); (3, 8)]]);
  (35, [[(0, 3); (1, 3); (1, 2); (2, 2); (2, 3); (2, 4); (2, 5); (3, 5); (3, 4); (2, 4); (2, 3); (3, 3); (3, 2); (4, 2); (4, 3); (5, 3); (5, 4); (4, 4); (4, 5); (5, 5); (5, 6); (4, 6); (4, 7); (3, 7); (3, 6); (2, 6); (2, 7); (1, 7); (1, 6); (0, 6); (0, 5); (1, 5); (1, 4); (0, 4)]]);
  (36, [[(0, 2); (1, 2); (2, 2); (2, 1); (3, 1); (3, 2); (4, 2); (4, 3); (3, 3); (3, 4); (4, 4); (4, 5); (3, 5); (3, 6); (3, 7); (4, 7); (5, 7); (5, 8); (4, 8); (3, 8); (3, 9); (2, 9); (2, 8); (1, 8); (1, 7); (2, 7); (2, 6); (1, 6); (1, 5); (2, 5); (2, 4); (2, 3); (1, 3); (0, 3)]; [(0, 6); (1, 6); (1, 7); (0, 7)]; [(4, 3); (5, 3); (5, 4); (4, 4)]]);
  (37, [[(0, 2); (1, 2); (1, 3); (1, 4); (0, 4); (0, 3)]; [(0, 7); (1, 7); (2, 7); (2, 8); (2, 9); (1, 9); (0, 9); (0, 8)]; [(1, 4); (2, 4); (2, 5); (1, 5)]; [(2, 5); (3, 5); (3, 6); (2, 6)]; [(3, 2); (4, 2); (5, 2); (5, 3); (5, 4); (4, 4); (3, 4); (3, 3)]; [(3, 6); (4, 6); (4, 7); (3, 7)]; [(4, 7); (5, 7); (5, 8); (5, 9); (4, 9); (4, 8)]]);
  (38, [[(0, 3); (1, 3); (1, 4); (1, 5); (0, 5); (0, 4)]; [(0, 6); (1, 6); (1, 7); (1, 8); (0, 8); (0, 7)]; [(1, 2); (2, 2); (3, 2); (3, 3); (2, 3); (1, 3)]; [(1, 5); (2, 5); (3, 5); (3, 6); (3, 7); (3, 8); (2, 8); (2, 7); (2, 6); (1, 6)]; [(1, 8); (2, 8); (2, 9); (1, 9)]; [(3, 3); (4, 3); (4, 4); (4, 5); (3, 5); (3, 4)]; [(4, 2); (5, 2); (5, 3); (4, 3)]; [(4, 5); (5, 5); (5, 6); (4, 6)]]);
  (39, [[(2, 7); (3, 7); (3, 8); (3, 9); (2, 9); (2, 8)]]);
  (40, [[(1, 4); (2, 4); (2, 5); (2, 6); (2, 7); (1, 7); (1, 6); (1, 5)]; [(2, 3); (3, 3); (3, 4); (2, 4)]; [(2, 7); (3, 7); (3, 8); (2, 8)]; [(3, 2); (4, 2); (4, 3); (3, 3)]; [(3, 8); (4, 8); (4, 9); (3, 9)]]);
  (41, [[(3, 4); (4, 4); (4, 5); (4, 6); (4, 7); (3, 7); (3, 6); (3, 5)]; [(1, 2); (2, 2); (2, 3); (1, 3)]; [(1, 8); (2, 8); (2, 9); (1, 9)]; [(2, 3); (3, 3); (3, 4); (2, 4)]; [(2, 7); (3, 7); (3, 8); (2, 8)]]);
  (42, [[(0, 2); (1, 2); (1, 3); (0, 3)]; [(0, 4); (1, 4); (1, 3); (2, 3); (2, 2); (3, 2); (3, 3); (4, 3); (4, 4); (5, 4); (5, 5); (4, 5); (4, 6); (3, 6); (3, 7); (2, 7); (2, 6); (1, 6); (1, 5); (0, 5)]; [(0, 6); (1, 6); (1, 7); (0, 7)]; [(4, 2); (5, 2); (5, 3); (4, 3)]; [(4, 6); (5, 6); (5, 7); (4, 7)]]);
  (43, [[(0, 4); (1, 4); (2, 4); (2, 3); (2, 2); (3, 2); (3, 3); (3, 4); (4, 4); (5, 4); (5, 5); (4, 5); (3, 5); (3, 6); (3, 7); (2, 7); (2, 6); (2, 5); (1, 5); (0, 5)]]);
  (44, [[(1, 0); (2, 0); (2, 1); (1, 1)]; [(2, 1); (3, 1); (3, 2); (3, 3); (2, 3); (2, 2)]]);
  (45, [[(0, 4); (1, 4); (2, 4); (3, 4); (4, 4); (5, 4); (5, 5); (4, 5); (3, 5); (2, 5); (1, 5); (0, 5)]]);
  (46, [[(2, 2); (3, 2); (3, 3); (2, 3)]]);
  (47, [[(0, 2); (1, 2); (1, 3); (1, 4); (0, 4); (0, 3)]; [(1, 4); (2, 4); (2, 5); (1, 5)]; [(2, 5); (3, 5); (3, 6); (2, 6)]; [(3, 6); (4, 6); (4, 7); (3, 7)]; [(4, 7); (5, 7); (5, 8); (5, 9); (4, 9); (4, 8)]]);
  (48, [[(0, 3); (1, 3); (1, 4); (2, 4); (2, 5); (1, 5); (1, 6); (1, 7); (1, 8); (0, 8); (0, 7); (0, 6); (0, 5); (0, 4)]; [(1, 2); (2, 2); (3, 2); (4, 2); (4, 3); (3, 3); (2, 3); (1, 3)]; [(1, 8); (2, 8); (3, 8); (4, 8); (4, 9); (3, 9); (2, 9); (1, 9)]; [(2, 5); (3, 5); (3, 6); (2, 6)]; [(3, 6); (4, 6); (4, 5); (4, 4); (4, 3); (5, 3); (5, 4); (5, 5); (5, 6); (5, 7); (5, 8); (4, 8); (4, 7); (3, 7)]]);
  (49, [[(1, 2); (2, 2); (3, 2); (4, 2); (4, 3); (3, 3); (3, 4); (3, 5); (3, 6); (3, 7); (3, 8); (3, 9); (2, 9); (2, 8); (1, 8); (1, 7); (2, 7); (2, 6); (2, 5); (2, 4); (2, 3); (1, 3)]]);
  (50, [[(0, 2); (1, 2); (2, 2); (3, 2); (4, 2); (5, 2); (5, 3); (4, 3); (3, 3); (2, 3); (1, 3); (1, 4); (0, 4); (0, 3)]; [(0, 7); (1, 7); (1, 8); (0, 8)]; [(1, 4); (2, 4); (3, 4); (3, 5); (2, 5); (1, 5)]; [(1, 8); (2, 8); (3, 8); (4, 8); (4, 9); (3, 9); (2, 9); (1, 9)]; [(3, 5); (4, 5); (4, 6); (3, 6)]; [(4, 6); (5, 6); (5, 7); (5, 8); (4, 8); (4, 7)]]);
  (51, [[(0, 2); (1, 2); (2, 2); (3, 2); (4, 2); (4, 3); (3, 3); (2, 3); (1, 3); (0, 3)]; [(0, 8); (1, 8); (2, 8); (3, 8); (4, 8); (4, 9); (3, 9); (2, 9); (1, 9); (0, 9)]; [(1, 5); (2, 5); (3, 5); (4, 5); (4, 6); (3, 6); (2, 6); (1, 6)]; [(4, 3); (5, 3); (5, 4); (5, 5); (4, 5); (4, 4)]; [(4, 6); (5, 6); (5, 7); (5, 8); (4, 8); (4, 7)]]);
  (52, [[(0, 4); (1, 4); (2, 4); (3, 4); (3, 3); (3, 2); (4, 2); (4, 3); (4, 4); (5, 4); (5, 5); (4, 5); (4, 6); (4, 7); (4, 8); (4, 9); (3, 9); (2, 9); (2, 8); (3, 8); (3, 7); (3, 6); (3, 5); (2, 5); (1, 5); (1, 6); (0, 6); (0, 5)]; [(1, 6); (2, 6); (2, 7); (2, 8); (1, 8); (1, 7)]]);
  (53, [[(0, 2); (1, 2); (2, 2); (3, 2); (4, 2); (4, 3); (3, 3); (2, 3); (1, 3); (0, 3)]; [(0, 5); (1, 5); (2, 5); (3, 5); (4, 5); (4, 6); (3, 6); (2, 6); (1, 6); (1, 7); (1, 8); (2, 8); (3, 8); (4, 8); (5, 8); (5, 9); (4, 9); (3, 9); (2, 9); (1, 9); (0, 9); (0, 8); (0, 7); (0, 6)]; [(4, 3); (5, 3); (5, 4); (5, 5); (4, 5); (4, 4)]]);
  (54, [[(0, 3); (1, 3); (1, 4); (1, 5); (2, 5); (3, 5); (4, 5); (4, 6); (3, 6); (2, 6); (1, 6); (1, 7); (1, 8); (0, 8); (0, 7); (0, 6); (0, 5); (0, 4)]; [(1, 2); (2, 2); (3, 2); (4, 2); (4, 3); (3, 3); (2, 3); (1, 3)]; [(1, 8); (2, 8); (3, 8); (4, 8); (4, 9); (3, 9); (2, 9); (1, 9)]; [(4, 3); (5, 3); (5, 4); (5, 5); (4, 5); (4, 4)]]);
  (55, [[(0, 8); (1, 8); (2, 8); (3, 8); (4, 8); (4, 7); (4, 6); (5, 6); (5, 7); (5, 8); (5, 9); (4, 9); (3, 9); (2, 9); (1, 9); (0, 9)]; [(2, 2); (3, 2); (3, 3); (3, 4); (3, 5); (2, 5); (2, 4); (2, 3)]; [(3, 5); (4, 5); (4, 6); (3, 6)]]);
  (56, [[(0, 3); (1, 3); (1, 4); (1, 5); (0, 5); (0, 4)]; [(0, 6); (1, 6); (1, 7); (1, 8); (0, 8); (0, 7)]; [(1, 2); (2, 2); (3, 2); (4, 2); (4, 3); (3, 3); (2, 3); (1, 3)]; [(1, 5); (2, 5); (3, 5); (4, 5); (4, 6); (3, 6); (2, 6); (1, 6)]; [(1, 8); (2, 8); (3, 8); (4, 8); (4, 9); (3, 9); (2, 9); (1, 9)]; [(4, 3); (5, 3); (5, 4); (5, 5); (4, 5); (4, 4)]; [(4, 6); (5, 6); (5, 7); (5, 8); (4, 8); (4, 7)]]);
  (57, [[(0, 6); (1, 6); (1, 7); (1, 8); (0, 8); (0, 7)]; [(1, 2); (2, 2); (3, 2); (4, 2); (4, 3); (3, 3); (2, 3); (1, 3)]; [(1, 5); (2, 5); (3, 5); (4, 5); (4, 4); (4, 3); (5, 3); (5, 4); (5, 5); (5, 6); (5, 7); (5, 8); (4, 8); (4, 7); (4, 6); (3, 6); (2, 6); (1, 6)]; [(1, 8); (2, 8); (3, 8); (4, 8); (4, 9); (3, 9); (2, 9); (1, 9)]]);
  (58, [[(2, 2); (3, 2); (3, 3); (2, 3)]; [(2, 5); (3, 5); (3, 6); (2, 6)]]);
  (59, [[(1, 0); (2, 0); (2, 1); (1, 1)]; [(2, 1); (3, 1); (3, 2); (3, 3); (2, 3); (2, 2)]; [(2, 4); (3, 4); (3, 5); (2, 5)]]);
  (60, [[(0, 5); (1, 5); (1, 6); (0, 6)]; [(1, 4); (2, 4); (2, 5); (1, 5)]; [(1, 6); (2, 6); (2, 7); (1, 7)]; [(2, 3); (3, 3); (4, 3); (4, 4); (3, 4); (2, 4)]; [(2, 7); (3, 7); (4, 7); (4, 8); (3, 8); (2, 8)]; [(4, 2); (5, 2); (5, 3); (4, 3)]; [(4, 8); (5, 8); (5, 9); (4, 9)]]);
  (61, [[(0, 3); (1, 3); (2, 3); (3, 3); (4, 3); (5, 3); (5, 4); (4, 4); (3, 4); (2, 4); (1, 4); (0, 4)]; [(0, 5); (1, 5); (2, 5); (3, 5); (4, 5); (5, 5); (5, 6); (4, 6); (3, 6); (2, 6); (1, 6); (0, 6)]]);
  (62, [[(0, 2); (1, 2); (1, 3); (0, 3)]; [(0, 8); (1, 8); (1, 9); (0, 9)]; [(1, 3); (2, 3); (3, 3); (3, 4); (2, 4); (1, 4)]; [(1, 7); (2, 7); (3, 7); (3, 8); (2, 8); (1, 8)]; [(3, 4); (4, 4); (4, 5); (3, 5)]; [(3, 6); (4, 6); (4, 7); (3, 7)]; [(4, 5); (5, 5); (5, 6); (4, 6)]]);
  (63, [[(0, 7); (1, 7); (1, 8); (0, 8)]; [(1, 8); (2, 8); (3, 8); (4, 8); (4, 9); (3, 9); (2, 9); (1, 9)]; [(2, 2); (3, 2); (3, 3); (2, 3)]; [(2, 4); (3, 4); (3, 5); (2, 5)]; [(3, 5); (4, 5); (4, 6); (3, 6)]; [(4, 6); (5, 6); (5, 7); (5, 8); (4, 8); (4, 7)]]);
  (64, [[(0, 3); (1, 3); (1, 4); (1, 5); (1, 6); (1, 7); (1, 8); (0, 8); (0, 7); (0, 6); (0, 5); (0, 4)]; [(1, 2); (2, 2); (3, 2); (4, 2); (4, 3); (3, 3); (2, 3); (1, 3)]; [(1, 8); (2, 8); (3, 8); (4, 8); (4, 9); (3, 9); (2, 9); (1, 9)]; [(2, 4); (3, 4); (4, 4); (4, 5); (3, 5); (3, 6); (3, 7); (2, 7); (2, 6); (2, 5)]; [(4, 5); (5, 5); (5, 6); (5, 7); (5, 8); (4, 8); (4, 7); (4, 6)]]);
  (65, [[(0, 2); (1, 2); (1, 3); (1, 4); (2, 4); (3, 4); (4, 4); (4, 3); (4, 2); (5, 2); (5, 3); (5, 4); (5, 5); (5, 6); (5, 7); (5, 8); (4, 8); (4, 7); (4, 6); (4, 5); (3, 5); (2, 5); (1, 5); (1, 6); (1, 7); (1, 8); (0, 8); (0, 7); (0, 6); (0, 5); (0, 4); (0, 3)]; [(1, 8); (2, 8); (3, 8); (4, 8); (4, 9); (3, 9); (2, 9); (1, 9)]]);
  (66, [[(0, 2); (1, 2); (2, 2); (3, 2); (4, 2); (4, 3); (3, 3); (2, 3); (1, 3); (1, 4); (1, 5); (2, 5); (3, 5); (4, 5); (4, 6); (3, 6); (2, 6); (1, 6); (1, 7); (1, 8); (2, 8); (3, 8); (4, 8); (4, 9); (3, 9); (2, 9); (1, 9); (0, 9); (0, 8); (0, 7); (0, 6); (0, 5); (0, 4); (0, 3)]; [(4, 3); (5, 3); (5, 4); (5, 5); (4, 5); (4, 4)]; [(4, 6); (5, 6); (5, 7); (5, 8); (4, 8); (4, 7)]]);
  (67, [[(0, 3); (1, 3); (1, 4); (1, 5); (1, 6); (1, 7); (1, 8); (0, 8); (0, 7); (0, 6); (0, 5); (0, 4)]; [(1, 2); (2, 2); (3, 2); (4, 2); (5, 2); (5, 3); (4, 3); (3, 3); (2, 3); (1, 3)]; [(1, 8); (2, 8); (3, 8); (4, 8); (5, 8); (5, 9); (4, 9); (3, 9); (2, 9); (1, 9)]]);
  (68, [[(0, 2); (1, 2); (2, 2); (3, 2); (3, 3); (2, 3); (1, 3); (1, 4); (1, 5); (1, 6); (1, 7); (1, 8); (2, 8); (3, 8); (3, 9); (2, 9); (1, 9); (0, 9); (0, 8); (0, 7); (0, 6); (0, 5); (0, 4); (0, 3)]; [(3, 3); (4, 3); (4, 4); (3, 4)]; [(3, 7); (4, 7); (4, 8); (3, 8)]; [(4, 4); (5, 4); (5, 5); (5, 6); (5, 7); (4, 7); (4, 6); (4, 5)]]);
  (69, [[(0, 2); (1, 2); (2, 2); (3, 2); (4, 2); (5, 2); (5, 3); (4, 3); (3, 3); (2, 3); (1, 3); (1, 4); (1, 5); (2, 5); (3, 5); (4, 5); (4, 6); (3, 6); (2, 6); (1, 6); (1, 7); (1, 8); (2, 8); (3, 8); (4, 8); (5, 8); (5, 9); (4, 9); (3, 9); (2, 9); (1, 9); (0, 9); (0, 8); (0, 7); (0, 6); (0, 5); (0, 4); (0, 3)]]);
  (70, [[(0, 2); (1, 2); (1, 3); (1, 4); (1, 5); (2, 5); (3, 5); (4, 5); (4, 6); (3, 6); (2, 6); (1, 6); (1, 7); (1, 8); (2, 8); (3, 8); (4, 8); (5, 8); (5, 9); (4, 9); (3, 9); (2, 9); (1, 9); (0, 9); (0, 8); (0, 7); (0, 6); (0, 5); (0, 4); (0, 3)]]);
  (71, [[(0, 3); (1, 3); (1, 4); (1, 5); (1, 6); (1, 7); (1, 8); (0, 8); (0, 7); (0, 6); (0, 5); (0, 4)]; [(1, 2); (2, 2); (3, 2); (4, 2); (5, 2); (5, 3); (5, 4); (5, 5); (5, 6); (4, 6); (3, 6); (2, 6); (2, 5); (3, 5); (4, 5); (4, 4); (4, 3); (3, 3); (2, 3); (1, 3)]; [(1, 8); (2, 8); (3, 8); (4, 8); (5, 8); (5, 9); (4, 9); (3, 9); (2, 9); (1, 9)]]);
  (72, [[(0, 2); (1, 2); (1, 3); (1, 4); (1, 5); (2, 5); (3, 5); (4, 5); (4, 4); (4, 3); (4, 2); (5, 2); (5, 3); (5, 4); (5, 5); (5, 6); (5, 7); (5, 8); (5, 9); (4, 9); (4, 8); (4, 7); (4, 6); (3, 6); (2, 6); (1, 6); (1, 7); (1, 8); (1, 9); (0, 9); (0, 8); (0, 7); (0, 6); (0, 5); (0, 4); (0, 3)]]);
  (73, [[(1, 2); (2, 2); (3, 2); (4, 2); (4, 3); (3, 3); (3, 4); (3, 5); (3, 6); (3, 7); (3, 8); (4, 8); (4, 9); (3, 9); (2, 9); (1, 9); (1, 8); (2, 8); (2, 7); (2, 6); (2, 5); (2, 4); (2, 3); (1, 3)]]);
  (74, [[(0, 3); (1, 3); (1, 4); (0, 4)]; [(0, 8); (1, 8); (2, 8); (3, 8); (3, 7); (3, 6); (3, 5); (3, 4); (3, 3); (4, 3); (4, 4); (4, 5); (4, 6); (4, 7); (4, 8); (5, 8); (5, 9); (4, 9); (3, 9); (2, 9); (1, 9); (0, 9)]; [(1, 2); (2, 2); (3, 2); (3, 3); (2, 3); (1, 3)]]);
  (75, [[(0, 2); (1, 2); (1, 3); (1, 4); (1, 5); (2, 5); (2, 6); (1, 6); (1, 7); (1, 8); (1, 9); (0, 9); (0, 8); (0, 7); (0, 6); (0, 5); (0, 4); (0, 3)]; [(2, 4); (3, 4); (3, 5); (2, 5)]; [(2, 6); (3, 6); (3, 7); (2, 7)]; [(3, 3); (4, 3); (4, 4); (3, 4)]; [(3, 7); (4, 7); (4, 8); (3, 8)]; [(4, 2); (5, 2); (5, 3); (4, 3)]; [(4, 8); (5, 8); (5, 9); (4, 9)]]);
  (76, [[(0, 2); (1, 2); (2, 2); (3, 2); (4, 2); (5, 2); (5, 3); (4, 3); (3, 3); (2, 3); (1, 3); (1, 4); (1, 5); (1, 6); (1, 7); (1, 8); (1, 9); (0, 9); (0, 8); (0, 7); (0, 6); (0, 5); (0, 4); (0, 3)]]);
  (77, [[(0, 2); (1, 2); (1, 3); (1, 4); (1, 5); (1, 6); (1, 7); (2, 7); (2, 8); (1, 8); (1, 9); (0, 9); (0, 8); (0, 7); (0, 6); (0, 5); (0, 4); (0, 3)]; [(2, 5); (3, 5); (3, 6); (3, 7); (2, 7); (2, 6)]; [(3, 7); (4, 7); (4, 6); (4, 5); (4, 4); (4, 3); (4, 2); (5, 2); (5, 3); (5, 4); (5, 5); (5, 6); (5, 7); (5, 8); (5, 9); (4, 9); (4, 8); (3, 8)]]);
  (78, [[(0, 2); (1, 2); (1, 3); (1, 4); (1, 5); (1, 6); (1, 7); (2, 7); (2, 8); (1, 8); (1, 9); (0, 9); (0, 8); (0, 7); (0, 6); (0, 5); (0, 4); (0, 3)]; [(2, 5); (3, 5); (3, 6); (3, 7); (2, 7); (2, 6)]; [(3, 4); (4, 4); (4, 3); (4, 2); (5, 2); (5, 3); (5, 4); (5, 5); (5, 6); (5, 7); (5, 8); (5, 9); (4, 9); (4, 8); (4, 7); (4, 6); (4, 5); (3, 5)]]);
  (79, [[(0, 3); (1, 3); (1, 4); (1, 5); (1, 6); (1, 7); (1, 8); (0, 8); (0, 7); (0, 6); (0, 5); (0, 4)]; [(1, 2); (2, 2); (3, 2); (4, 2); (4, 3); (3, 3); (2, 3); (1, 3)]; [(1, 8); (2, 8); (3, 8); (4, 8); (4, 9); (3, 9); (2, 9); (1, 9)]; [(4, 3); (5, 3); (5, 4); (5, 5); (5, 6); (5, 7); (5, 8); (4, 8); (4, 7); (4, 6); (4, 5); (4, 4)]]);
  (80, [[(0, 2); (1, 2); (1, 3); (1, 4); (1, 5); (2, 5); (3, 5); (4, 5); (4, 6); (3, 6); (2, 6); (1, 6); (1, 7); (1, 8); (2, 8); (3, 8); (4, 8); (4, 9); (3, 9); (2, 9); (1, 9); (0, 9); (0, 8); (0, 7); (0, 6); (0, 5); (0, 4); (0, 3)]; [(4, 6); (5, 6); (5, 7); (5, 8); (4, 8); (4, 7)]]);
  (81, [[(0, 3); (1, 3); (1, 4); (1, 5); (1, 6); (1, 7); (1, 8); (0, 8); (0, 7); (0, 6); (0, 5); (0, 4)]; [(1, 2); (2, 2); (3, 2); (4, 2); (4, 3); (5, 3); (5, 4); (5, 5); (5, 6); (5, 7); (5, 8); (4, 8); (4, 7); (4, 6); (4, 5); (4, 4); (3, 4); (3, 3); (2, 3); (1, 3)]; [(1, 8); (2, 8); (3, 8); (4, 8); (4, 9); (3, 9); (2, 9); (1, 9)]; [(2, 4); (3, 4); (3, 5); (2, 5)]]);
  (82, [[(0, 2); (1, 2); (1, 3); (1, 4); (1, 5); (2, 5); (3, 5); (3, 4); (4, 4); (4, 5); (4, 6); (3, 6); (2, 6); (1, 6); (1, 7); (1, 8); (2, 8); (3, 8); (4, 8); (4, 9); (3, 9); (2, 9); (1, 9); (0, 9); (0, 8); (0, 7); (0, 6); (0, 5); (0, 4); (0, 3)]; [(4, 2); (5, 2); (5, 3); (5, 4); (4, 4); (4, 3)]; [(4, 6); (5, 6); (5, 7); (5, 8); (4, 8); (4, 7)]]);
  (83, [[(0, 2); (1, 2); (2, 2); (3, 2); (4, 2); (4, 3); (3, 3); (2, 3); (1, 3); (0, 3)]; [(0, 6); (1, 6); (1, 7); (1, 8); (0, 8); (0, 7)]; [(1, 5); (2, 5); (3, 5); (4, 5); (4, 6); (3, 6); (2, 6); (1, 6)]; [(1, 8); (2, 8); (3, 8); (4, 8); (5, 8); (5, 9); (4, 9); (3, 9); (2, 9); (1, 9)]; [(4, 3); (5, 3); (5, 4); (5, 5); (4, 5); (4, 4)]]);
  (84, [[(0, 8); (1, 8); (2, 8); (2, 7); (2, 6); (2, 5); (2, 4); (2, 3); (2, 2); (3, 2); (3, 3); (3, 4); (3, 5); (3, 6); (3, 7); (3, 8); (4, 8); (5, 8); (5, 9); (4, 9); (3, 9); (2, 9); (1, 9); (0, 9)]]);
  (85, [[(0, 3); (1, 3); (1, 4); (1, 5); (1, 6); (1, 7); (1, 8); (1, 9); (0, 9); (0, 8); (0, 7); (0, 6); (0, 5); (0, 4)]; [(1, 2); (2, 2); (3, 2); (4, 2); (4, 3); (3, 3); (2, 3); (1, 3)]; [(4, 3); (5, 3); (5, 4); (5, 5); (5, 6); (5, 7); (5, 8); (5, 9); (4, 9); (4, 8); (4, 7); (4, 6); (4, 5); (4, 4)]]);
  (86, [[(0, 5); (1, 5); (1, 6); (1, 7); (1, 8); (1, 9); (0, 9); (0, 8); (0, 7); (0, 6)]; [(1, 3); (2, 3); (2, 4); (2, 5); (1, 5); (1, 4)]; [(2, 2); (3, 2); (3, 3); (2, 3)]; [(3, 3); (4, 3); (4, 4); (4, 5); (3, 5); (3, 4)]; [(4, 5); (5, 5); (5, 6); (5, 7); (5, 8); (5, 9); (4, 9); (4, 8); (4, 7); (4, 6)]]);
  (87, [[(0, 3); (1, 3); (1, 4); (1, 5); (1, 6); (1, 7); (1, 8); (1, 9); (0, 9); (0, 8); (0, 7); (0, 6); (0, 5); (0, 4)]; [(1, 2); (2, 2); (2, 3); (1, 3)]; [(2, 3); (3, 3); (3, 4); (3, 5); (3, 6); (2, 6); (2, 5); (2, 4)]; [(3, 2); (4, 2); (4, 3); (3, 3)]; [(4, 3); (5, 3); (5, 4); (5, 5); (5, 6); (5, 7); (5, 8); (5, 9); (4, 9); (4, 8); (4, 7); (4, 6); (4, 5); (4, 4)]]);
  (88, [[(0, 2); (1, 2); (1, 3); (1, 4); (0, 4); (0, 3)]; [(0, 7); (1, 7); (1, 8); (1, 9); (0, 9); (0, 8)]; [(1, 4); (2, 4); (2, 5); (1, 5)]; [(1, 6); (2, 6); (2, 7); (1, 7)]; [(2, 5); (3, 5); (3, 6); (2, 6)]; [(3, 4); (4, 4); (4, 5); (3, 5)]; [(3, 6); (4, 6); (4, 7); (3, 7)]; [(4, 2); (5, 2); (5, 3); (5, 4); (4, 4); (4, 3)]; [(4, 7); (5, 7); (5, 8); (5, 9); (4, 9); (4, 8)]]);
  (89, [[(0, 7); (1, 7); (1, 8); (1, 9); (0, 9); (0, 8)]; [(1, 5); (2, 5); (2, 6); (2, 7); (1, 7); (1, 6)]; [(2, 2); (3, 2); (3, 3); (3, 4); (3, 5); (2, 5); (2, 4); (2, 3)]; [(3, 5); (4, 5); (4, 6); (4, 7); (3, 7); (3, 6)]; [(4, 7); (5, 7); (5, 8); (5, 9); (4, 9); (4, 8)]]);
  (90, [[(0, 2); (1, 2); (2, 2); (3, 2); (4, 2); (5, 2); (5, 3); (4, 3); (3, 3); (2, 3); (1, 3); (1, 4); (0, 4); (0, 3)]; [(0, 8); (1, 8); (2, 8); (3, 8); (4, 8); (4, 7); (5, 7); (5, 8); (5, 9); (4, 9); (3, 9); (2, 9); (1, 9); (0, 9)]; [(1, 4); (2, 4); (2, 5); (1, 5)]; [(2, 5); (3, 5); (3, 6); (2, 6)]; [(3, 6); (4, 6); (4, 7); (3, 7)]]);
  (91, [[(1, 2); (2, 2); (3, 2); (4, 2); (4, 3); (3, 3); (2, 3); (2, 4); (2, 5); (2, 6); (2, 7); (2, 8); (3, 8); (4, 8); (4, 9); (3, 9); (2, 9); (1, 9); (1, 8); (1, 7); (1, 6); (1, 5); (1, 4); (1, 3)]]);
  (92, [[(0, 7); (1, 7); (1, 8); (1, 9); (0, 9); (0, 8)]; [(1, 6); (2, 6); (2, 7); (1, 7)]; [(2, 5); (3, 5); (3, 6); (2, 6)]; [(3, 4); (4, 4); (4, 5); (3, 5)]; [(4, 2); (5, 2); (5, 3); (5, 4); (4, 4); (4, 3)]]);
  (93, [[(1, 2); (2, 2); (3, 2); (4, 2); (4, 3); (4, 4); (4, 5); (4, 6); (4, 7); (4, 8); (4, 9); (3, 9); (2, 9); (1, 9); (1, 8); (2, 8); (3, 8); (3, 7); (3, 6); (3, 5); (3, 4); (3, 3); (2, 3); (1, 3)]]);
  (94, [[(0, 6); (1, 6); (1, 7); (0, 7)]; [(1, 7); (2, 7); (2, 8); (1, 8)]; [(2, 8); (3, 8); (3, 9); (2, 9)]; [(3, 7); (4, 7); (4, 8); (3, 8)]; [(4, 6); (5, 6); (5, 7); (4, 7)]]);
  (95, [[(0, 2); (1, 2); (2, 2); (3, 2); (4, 2); (5, 2); (5, 3); (4, 3); (3, 3); (2, 3); (1, 3); (0, 3)]]);
  (96, [[(1, 8); (2, 8); (2, 9); (1, 9)]; [(2, 7); (3, 7); (3, 8); (2, 8)]]);
  (97, [[(0, 3); (1, 3); (1, 4); (0, 4)]; [(1, 2); (2, 2); (3, 2); (4, 2); (5, 2); (5, 3); (5, 4); (5, 5); (5, 6); (4, 6); (4, 5); (3, 5); (2, 5); (1, 5); (1, 4); (2, 4); (3, 4); (4, 4); (4, 3); (3, 3); (2, 3); (1, 3)]; [(1, 6); (2, 6); (3, 6); (4, 6); (4, 7); (3, 7); (2, 7); (1, 7)]]);
  (98, [[(0, 2); (1, 2); (2, 2); (3, 2); (4, 2); (4, 3); (3, 3); (2, 3); (1, 3); (1, 4); (1, 5); (1, 6); (2, 6); (3, 6); (4, 6); (4, 7); (3, 7); (2, 7); (1, 7); (1, 8); (1, 9); (0, 9); (0, 8); (0, 7); (0, 6); (0, 5); (0, 4); (0, 3)]; [(4, 3); (5, 3); (5, 4); (5, 5); (5, 6); (4, 6); (4, 5); (4, 4)]]);
  (99, [[(0, 3); (1, 3); (1, 4); (1, 5); (1, 6); (0, 6); (0, 5); (0, 4)]; [(1, 2); (2, 2); (3, 2); (4, 2); (5, 2); (5, 3); (4, 3); (3, 3); (2, 3); (1, 3)]; [(1, 6); (2, 6); (3, 6); (4, 6); (5, 6); (5, 7); (4, 7); (3, 7); (2, 7); (1, 7)]]);
  (100, [[(0, 3); (1, 3); (1, 4); (1, 5); (1, 6); (0, 6); (0, 5); (0, 4)]; [(1, 2); (2, 2); (3, 2); (4, 2); (5, 2); (5, 3); (5, 4); (5, 5); (5, 6); (5, 7); (5, 8); (5, 9); (4, 9); (4, 8); (4, 7); (3, 7); (2, 7); (1, 7); (1, 6); (2, 6); (3, 6); (4, 6); (4, 5); (4, 4); (4, 3); (3, 3); (2, 3); (1, 3)]]);
  (101, [[(0, 3); (1, 3); (1, 4); (2, 4); (3, 4); (4, 4); (5, 4); (5, 5); (5, 6); (4, 6); (4, 5); (3, 5); (2, 5); (1, 5); (1, 6); (0, 6); (0, 5); (0, 4)]; [(1, 2); (2, 2); (3, 2); (4, 2); (4, 3); (3, 3); (2, 3); (1, 3)]; [(1, 6); (2, 6); (3, 6); (4, 6); (4, 7); (3, 7); (2, 7); (1, 7)]]);
  (102, [[(0, 5); (1, 5); (1, 4); (1, 3); (1, 2); (2, 2); (2, 3); (2, 4); (2, 5); (3, 5); (4, 5); (4, 6); (3, 6); (2, 6); (2, 7); (2, 8); (1, 8); (1, 7); (1, 6); (0, 6)]; [(2, 8); (3, 8); (4, 8); (5, 8); (5, 9); (4, 9); (3, 9); (2, 9)]]);
  (103, [[(0, 3); (1, 3); (1, 4); (1, 5); (1, 6); (0, 6); (0, 5); (0, 4)]; [(1, 0); (2, 0); (3, 0); (4, 0); (4, 1); (3, 1); (2, 1); (1, 1)]; [(1, 2); (2, 2); (3, 2); (4, 2); (4, 1); (5, 1); (5, 2); (5, 3); (5, 4); (5, 5); (5, 6); (4, 6); (4, 5); (4, 4); (4, 3); (3, 3); (2, 3); (1, 3)]; [(1, 6); (2, 6); (3, 6); (4, 6); (4, 7); (3, 7); (2, 7); (1, 7)]]);
  (104, [[(0, 2); (1, 2); (1, 3); (1, 4); (1, 5); (1, 6); (2, 6); (3, 6); (4, 6); (4, 7); (3, 7); (2, 7); (1, 7); (1, 8); (1, 9); (0, 9); (0, 8); (0, 7); (0, 6); (0, 5); (0, 4); (0, 3)]; [(4, 2); (5, 2); (5, 3); (5, 4); (5, 5); (5, 6); (4, 6); (4, 5); (4, 4); (4, 3)]]);
  (105, [[(1, 6); (2, 6); (2, 5); (2, 4); (2, 3); (2, 2); (3, 2); (4, 2); (4, 3); (3, 3); (3, 4); (3, 5); (3, 6); (3, 7); (2, 7); (1, 7)]; [(2, 8); (3, 8); (3, 9); (2, 9)]]);
  (106, [[(0, 0); (1, 0); (2, 0); (2, 1); (1, 1); (0, 1)]; [(1, 6); (2, 6); (2, 5); (2, 4); (2, 3); (2, 2); (2, 1); (3, 1); (3, 2); (3, 3); (3, 4); (3, 5); (3, 6); (3, 7); (2, 7); (1, 7)]; [(2, 8); (3, 8); (3, 9); (2, 9)]]);
  (107, [[(0, 2); (1, 2); (1, 3); (1, 4); (2, 4); (3, 4); (3, 5); (2, 5); (1, 5); (1, 6); (1, 7); (1, 8); (1, 9); (0, 9); (0, 8); (0, 7); (0, 6); (0, 5); (0, 4); (0, 3)]; [(3, 3); (4, 3); (4, 4); (3, 4)]; [(3, 5); (4, 5); (4, 6); (3, 6)]; [(4, 2); (5, 2); (5, 3); (4, 3)]; [(4, 6); (5, 6); (5, 7); (4, 7)]]);
  (108, [[(1, 8); (2, 8); (2, 7); (2, 6); (2, 5); (2, 4); (2, 3); (2, 2); (3, 2); (4, 2); (4, 3); (3, 3); (3, 4); (3, 5); (3, 6); (3, 7); (3, 8); (3, 9); (2, 9); (1, 9)]]);
  (109, [[(0, 2); (1, 2); (1, 3); (1, 4); (1, 5); (1, 6); (2, 6); (2, 5); (2, 4); (2, 3); (2, 2); (3, 2); (3, 3); (3, 4); (3, 5); (3, 6); (4, 6); (4, 7); (3, 7); (2, 7); (1, 7); (0, 7); (0, 6); (0, 5); (0, 4); (0, 3)]; [(4, 2); (5, 2); (5, 3); (5, 4); (5, 5); (5, 6); (4, 6); (4, 5); (4, 4); (4, 3)]]);
  (110, [[(0, 2); (1, 2); (1, 3); (1, 4); (1, 5); (1, 6); (2, 6); (3, 6); (4, 6); (4, 7); (3, 7); (2, 7); (1, 7); (0, 7); (0, 6); (0, 5); (0, 4); (0, 3)]; [(4, 2); (5, 2); (5, 3); (5, 4); (5, 5); (5, 6); (4, 6); (4, 5); (4, 4); (4, 3)]]);
  (111, [[(0, 3); (1, 3); (1, 4); (1, 5); (1, 6); (0, 6); (0, 5); (0, 4)]; [(1, 2); (2, 2); (3, 2); (4, 2); (4, 3); (3, 3); (2, 3); (1, 3)]; [(1, 6); (2, 6); (3, 6); (4, 6); (4, 7); (3, 7); (2, 7); (1, 7)]; [(4, 3); (5, 3); (5, 4); (5, 5); (5, 6); (4, 6); (4, 5); (4, 4)]]);
  (112, [[(0, 0); (1, 0); (1, 1); (1, 2); (2, 2); (3, 2); (4, 2); (4, 3); (3, 3); (2, 3); (1, 3); (1, 4); (1, 5); (1, 6); (2, 6); (3, 6); (4, 6); (4, 7); (3, 7); (2, 7); (1, 7); (0, 7); (0, 6); (0, 5); (0, 4); (0, 3); (0, 2); (0, 1)]; [(4, 3); (5, 3); (5, 4); (5, 5); (5, 6); (4, 6); (4, 5); (4, 4)]]);
  (113, [[(0, 3); (1, 3); (1, 4); (1, 5); (1, 6); (0, 6); (0, 5); (0, 4)]; [(1, 2); (2, 2); (3, 2); (4, 2); (4, 1); (4, 0); (5, 0); (5, 1); (5, 2); (5, 3); (5, 4); (5, 5); (5, 6); (4, 6); (4, 5); (4, 4); (4, 3); (3, 3); (2, 3); (1, 3)]; [(1, 6); (2, 6); (3, 6); (4, 6); (4, 7); (3, 7); (2, 7); (1, 7)]]);
  (114, [[(0, 2); (1, 2); (1, 3); (1, 4); (1, 5); (2, 5); (3, 5); (3, 6); (2, 6); (1, 6); (1, 7); (0, 7); (0, 6); (0, 5); (0, 4); (0, 3)]; [(3, 6); (4, 6); (5, 6); (5, 7); (4, 7); (3, 7)]]);
  (115, [[(0, 2); (1, 2); (2, 2); (3, 2); (4, 2); (4, 3); (3, 3); (2, 3); (1, 3); (0, 3)]; [(0, 5); (1, 5); (1, 6); (0, 6)]; [(1, 4); (2, 4); (3, 4); (4, 4); (4, 5); (3, 5); (2, 5); (1, 5)]; [(1, 6); (2, 6); (3, 6); (4, 6); (5, 6); (5, 7); (4, 7); (3, 7); (2, 7); (1, 7)]; [(4, 3); (5, 3); (5, 4); (4, 4)]]);
  (116, [[(1, 6); (2, 6); (2, 5); (2, 4); (2, 3); (3, 3); (3, 4); (3, 5); (3, 6); (4, 6); (5, 6); (5, 7); (4, 7); (3, 7); (3, 8); (3, 9); (2, 9); (2, 8); (2, 7); (1, 7)]; [(3, 2); (4, 2); (5, 2); (5, 3); (4, 3); (3, 3)]]);
  (117, [[(0, 3); (1, 3); (1, 4); (1, 5); (1, 6); (1, 7); (0, 7); (0, 6); (0, 5); (0, 4)]; [(1, 2); (2, 2); (3, 2); (4, 2); (4, 3); (3, 3); (2, 3); (1, 3)]; [(4, 3); (5, 3); (5, 4); (5, 5); (5, 6); (5, 7); (4, 7); (4, 6); (4, 5); (4, 4)]]);
  (118, [[(0, 5); (1, 5); (1, 6); (1, 7); (0, 7); (0, 6)]; [(1, 3); (2, 3); (2, 4); (2, 5); (1, 5); (1, 4)]; [(2, 2); (3, 2); (3, 3); (2, 3)]; [(3, 3); (4, 3); (4, 4); (4, 5); (3, 5); (3, 4)]; [(4, 5); (5, 5); (5, 6); (5, 7); (4, 7); (4, 6)]]);
  (119, [[(0, 3); (1, 3); (1, 4); (1, 5); (1, 6); (1, 7); (0, 7); (0, 6); (0, 5); (0, 4)]; [(1, 2); (2, 2); (2, 3); (1, 3)]; [(2, 3); (3, 3); (3, 4); (3, 5); (3, 6); (2, 6); (2, 5); (2, 4)]; [(3, 2); (4, 2); (4, 3); (3, 3)]; [(4, 3); (5, 3); (5, 4); (5, 5); (5, 6); (5, 7); (4, 7); (4, 6); (4, 5); (4, 4)]]);
  (120, [[(0, 2); (1, 2); (1, 3); (0, 3)]; [(0, 6); (1, 6); (1, 7); (0, 7)]; [(1, 3); (2, 3); (2, 4); (1, 4)]; [(1, 5); (2, 5); (2, 6); (1, 6)]; [(2, 4); (3, 4); (3, 5); (2, 5)]; [(3, 3); (4, 3); (4, 4); (3, 4)]; [(3, 5); (4, 5); (4, 6); (3, 6)]; [(4, 2); (5, 2); (5, 3); (4, 3)]; [(4, 6); (5, 6); (5, 7); (4, 7)]]);
  (121, [[(0, 3); (1, 3); (1, 4); (1, 5); (1, 6); (1, 7); (0, 7); (0, 6); (0, 5); (0, 4)]; [(1, 0); (2, 0); (3, 0); (4, 0); (4, 1); (3, 1); (2, 1); (1, 1)]; [(1, 2); (2, 2); (3, 2); (4, 2); (4, 1); (5, 1); (5, 2); (5, 3); (5, 4); (5, 5); (5, 6); (5, 7); (4, 7); (4, 6); (4, 5); (4, 4); (4, 3); (3, 3); (2, 3); (1, 3)]]);
  (122, [[(0, 2); (1, 2); (2, 2); (3, 2); (4, 2); (5, 2); (5, 3); (4, 3); (3, 3); (2, 3); (2, 4); (1, 4); (1, 3); (0, 3)]; [(0, 6); (1, 6); (2, 6); (3, 6); (3, 5); (4, 5); (4, 6); (5, 6); (5, 7); (4, 7); (3, 7); (2, 7); (1, 7); (0, 7)]; [(2, 4); (3, 4); (3, 5); (2, 5)]]);
  (123, [[(1, 5); (2, 5); (2, 4); (2, 3); (3, 3); (3, 4); (3, 5); (3, 6); (3, 7); (3, 8); (2, 8); (2, 7); (2, 6); (1, 6)]; [(3, 2); (4, 2); (5, 2); (5, 3); (4, 3); (3, 3)]; [(3, 8); (4, 8); (5, 8); (5, 9); (4, 9); (3, 9)]]);
  (124, [[(2, 2); (3, 2); (3, 3); (3, 4); (3, 5); (3, 6); (3, 7); (3, 8); (3, 9); (2, 9); (2, 8); (2, 7); (2, 6); (2, 5); (2, 4); (2, 3)]]);
  (125, [[(0, 2); (1, 2); (2, 2); (2, 3); (1, 3); (0, 3)]; [(0, 8); (1, 8); (2, 8); (2, 9); (1, 9); (0, 9)]; [(2, 3); (3, 3); (3, 4); (3, 5); (4, 5); (4, 6); (3, 6); (3, 7); (3, 8); (2, 8); (2, 7); (2, 6); (2, 5); (2, 4)]]);
  (126, [[(0, 6); (1, 6); (1, 7); (1, 8); (0, 8); (0, 7)]; [(1, 8); (2, 8); (2, 9); (1, 9)]; [(2, 7); (3, 7); (3, 8); (2, 8)]; [(3, 6); (4, 6); (4, 7); (3, 7)]; [(4, 7); (5, 7); (5, 8); (5, 9); (4, 9); (4, 8)]])
].

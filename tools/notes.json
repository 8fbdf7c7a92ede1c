{
 "partial": {},
 "notes": {
  "C05": "binary64 rounding by Flocq; overflow is outside the stated range of k and fs"
 }
}
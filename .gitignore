.nra.cache
.lia.cache
*.vo
*.vok
*.vos
*.glob
.*.aux
rocq/Makefile
rocq/Makefile.conf
rocq/.Makefile.d
.nia.cache

*.vo
*.vok
*.vos
*.glob
*.aux
.*.aux
.Makefile.d
rocq/Makefile
rocq/Makefile.conf
.lia.cache
.nia.cache
.nra.cache

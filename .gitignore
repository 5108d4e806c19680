*.vo
*.vok
*.vos
*.glob
.*.aux
.Makefile.d
.lia.cache
.nia.cache
rocq/Makefile
rocq/Makefile.conf
